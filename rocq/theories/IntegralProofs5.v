(** The Riemann sums of every form converge to Lawrence's sum, for every usable direction. *)
From Coq Require Import QArith Qabs Qfield Lqa Qpower.
From Verif Require Import Common IntegSpec SmithSpec ZMat Hermite HermiteProofs Det DetProofs Piped PipedSpec PipedProofs PipedProofs3 ConeSpec CountSpec IntegralSpec IntegMath IntegProofs IntegProofs5 Series DecompProofs ExpSpec ExpProofs ExpProofs2 ExpProofs4 InterpProofs2 PerturbSpec PerturbProofs2 PerturbProofs3 PerturbProofs4 CountProofs7 IntegralProofs LimitProofs IntegralProofs3 IntegralProofs4.
Open Scope Q_scope.

(** ** (p + q x)^m as a list *)
Fixpoint mulaff (p q prev : Q) (l : list Q) : list Q := match l with [] => [q * prev] | a :: l' => (p * a + q * prev) :: mulaff p q a l' end.
Lemma f2_length {A B} (R : A -> B -> Prop) l r : Forall2 R l r -> length l = length r.
Proof. induction 1; cbn; congruence. Qed.
Lemma mulaff_at p q l : forall prev x, poly_at (mulaff p q prev l) x == q * prev + (p + q * x) * poly_at l x.
Proof. induction l as [|a l IH]; intros prev x; cbn [mulaff ExpSpec.poly_at]; [ring|]. rewrite IH. ring. Qed.
Lemma mulaff_len p q l : forall prev, length (mulaff p q prev l) = S (length l).
Proof. induction l as [|a l IH]; intros prev; cbn [mulaff length]; [reflexivity|now rewrite IH]. Qed.
Lemma mulaff_last p q l : forall prev d, length l = S d -> nth (S d) (mulaff p q prev l) 0 == q * nth d l 0.
Proof.
  induction l as [|a l IH]; intros prev d L; [discriminate|]. cbn [mulaff nth]. destruct l as [|b l]; [cbn [length] in L; assert (d = O) by lia; subst d; cbn [mulaff nth]; reflexivity|]. destruct d as [|d]; [discriminate|]. cbn [length] in L. rewrite (IH a d) by (cbn [length]; lia). reflexivity.
Qed.
Fixpoint blist (m : nat) (p q : Q) : list Q := match m with O => [1] | S m' => mulaff p q 0 (blist m' p q) end.
Lemma blist_len m p q : length (blist m p q) = S m.
Proof. induction m as [|m IH]; [reflexivity|]. cbn [blist]. now rewrite mulaff_len, IH. Qed.
Lemma blist_at m p q x : poly_at (blist m p q) x == (p + q * x) ^ Z.of_nat m.
Proof. induction m as [|m IH]; [cbn; ring|]. cbn [blist]. rewrite mulaff_at, IH, Qpow_S. ring. Qed.
Lemma blist_last m p q : nth m (blist m p q) 0 == q ^ Z.of_nat m.
Proof. induction m as [|m IH]; [reflexivity|]. cbn [blist]. rewrite (mulaff_last p q _ 0 m (blist_len m p q)), IH, Qpow_S. reflexivity. Qed.
(** ** Sums of polynomials *)
Fixpoint padd (l r : list Q) : list Q := match l, r with [], _ => r | _, [] => l | a :: l', b :: r' => (a + b) :: padd l' r' end.
Lemma padd_at l : forall r x, poly_at (padd l r) x == poly_at l x + poly_at r x.
Proof. induction l as [|a l IH]; intros [|b r] x; cbn [padd ExpSpec.poly_at]; try ring. rewrite IH. ring. Qed.
Lemma padd_head l r : nth 0 (padd l r) 0 == nth 0 l 0 + nth 0 r 0.
Proof. destruct l, r; cbn [padd nth]; ring. Qed.
Lemma pscale_at c l x : poly_at (map (Qmult c) l) x == c * poly_at l x.
Proof. induction l as [|a l IH]; cbn [map ExpSpec.poly_at]; [ring|]. rewrite IH. ring. Qed.
Lemma pscale_head c l : nth 0 (map (Qmult c) l) 0 == c * nth 0 l 0.
Proof. destruct l; cbn [map nth]; ring. Qed.
Lemma sum_expansion {A} (a : A -> Q) (F : A -> Z -> Q) (c : A -> Q) cones : (forall x, In x cones -> exists l, nth 0 l 0 == c x /\ tends (fun K => F x K - poly_at l (inject_Z K)) 0) ->
  exists l, nth 0 l 0 == qsum (fun x => a x * c x) cones /\ tends (fun K => qsum (fun x => a x * F x K) cones - poly_at l (inject_Z K)) 0.
Proof.
  induction cones as [|x cones IH]; intros H.
  - exists []. split; [reflexivity|]. apply (tends_ext (fun _ => 0)); [|apply tends_const]. exists 0%Z. intros; cbn; ring.
  - destruct IH as (l & L1 & L2); [intros; apply H; now right|]. destruct (H x (or_introl eq_refl)) as (r & R1 & R2). exists (padd (map (Qmult (a x)) r) l). split.
    + rewrite padd_head, pscale_head, R1, L1. reflexivity.
    + apply (tends_eq _ (a x * 0 + 0)); [ring|]. eapply tends_ext; [|apply tends_plus; [apply (tends_scale (a x)), R2|apply L2]]. exists 0%Z. intros K _. cbv beta. rewrite padd_at, pscale_at. cbn [qsum]. ring.
Qed.
(** ** Directions *)
Definition along (n : nat) (K : Z) (l e : list Z) : list Z := map (fun i => (K * nth i l 0 + nth i e 0)%Z) (seq 0 n).
Lemma along_dot n K l e y : length l = n -> length e = n -> dot (along n K l e) y = (K * dot l y + dot e y)%Z.
Proof.
  intros Ll Le. rewrite <- !zdot_dot. unfold zdot. unfold along at 1. rewrite map_length, seq_length, Ll, Le, <- ZMat.zsum_scal, <- ZMat.zsum_add. apply ZMat.zsum_ext. intros k Hk. unfold along. rewrite nth_map_seq by exact Hk. ring.
Qed.
Lemma along_len n K l e : length (along n K l e) = n.
Proof. unfold along. now rewrite map_length, seq_length. Qed.
Lemma along_generic n l e rays : length l = n -> length e = n -> (forall r, In r rays -> dot l r <> 0 \/ dot e r <> 0)%Z -> exists K0, (1 <= K0)%Z /\ forall K, (K0 <= K)%Z -> forall r, In r rays -> dot (along n K l e) r <> 0%Z.
Proof.
  intros Ll Le H. destruct (bound_exists (dot e) rays) as (M & M0 & MB). exists M. split; [lia|]. intros K HK r Hr. rewrite along_dot by assumption. specialize (MB r Hr). destruct (Z.eq_dec (dot l r) 0) as [E|E]; [rewrite E; destruct (H r Hr); [contradiction|lia]|nia].
Qed.
Lemma zprodl_product l : zprodl l = product l.
Proof. reflexivity. Qed.
Lemma product_scaled (K : Z) (rays : list (list Z)) (l e : list Z) n : length l = n -> length e = n -> (1 <= K)%Z ->
  inject_Z (product (map (dot (along n K l e)) rays)) == inject_Z K ^ Z.of_nat (length rays) * product_at (/ inject_Z K) (map (fun r => (dot l r, dot e r)) rays).
Proof.
  intros Ll Le HK. pose proof (injk K HK) as P. induction rays as [|r rays IH]; [cbn; ring|]. cbn [map product product_at fold_right length]. fold (product (map (dot (along n K l e)) rays)) (product_at (/ inject_Z K) (map (fun r => (dot l r, dot e r)) rays)).
  rewrite inject_Z_mult, IH, along_dot, inject_Z_plus, inject_Z_mult, Qpow_S by assumption. unfold factor_at. cbn [fst snd]. field. lra.
Qed.
Section All.
Context (n : nat) (rows : list (list Z)) (vs : list (list Z)) (tri : list Z -> list (list (list Z))).
Context (Hn : (0 < n)%nat) (LR : forall c, In c rows -> length c = S n) (LV : forall v, In v vs -> length v = n).
Context (AV : all_vertices n rows (map zpoint vs)) (SP : forall v, In v vs -> splits_tangent_cone n rows v (tri v)).
Context (pts : Z -> list (list Z)) (PT : forall k, (0 < k)%Z -> integer_points n (map (dilate_row k) rows) (pts k)).
Let cones := flat_map (fun v => map (pair v) (tri v)) vs.
Definition head (m : nat) : Q := sign n * (qfact m / qfact (n + m)).
Definition term (N : nat) (l e : list Z) (c : list Z * list (list Z)) : Q :=
  constant_coefficient (dot l (fst c)) (dot e (fst c)) N (map (fun r => (dot l r, dot e r)) (snd c)).
Definition weight (c : list Z * list (list Z)) : Q := inject_Z (Z.abs (det n (ent (snd c)))).
Lemma cones_in c : In c cones -> In (fst c) vs /\ In (snd c) (tri (fst c)) /\ length (snd c) = n /\ lin_indep n (snd c) /\ Forall (fun r => length r = n) (snd c).
Proof. intros H. unfold cones in H. apply in_flat_map in H as (v & Hv & H). apply in_map_iff in H as (T & <- & HT). cbn [fst snd]. destruct (proj1 (SP v Hv) T HT) as [[L1 L2] LI]. auto. Qed.
(** Generic direction *)
Lemma generic_direction l e m : length l = n -> length e = n -> (forall c r, In c cones -> In r (snd c) -> dot l r <> 0 \/ dot e r <> 0)%Z ->
  tends (fun k => riemann_sum n l m k (pts k)) (head m * qsum (fun c => weight c * term (n + m) l e c) cones).
Proof.
  intros Ll Le GE. set (N := (n + m)%nat).
  destruct (along_generic n l e (flat_map snd cones) Ll Le) as (K0 & K1 & GK).
  { intros r Hr. apply in_flat_map in Hr as (c & Hc & Hr). eauto. }
  set (cs := map (fun j k => qsum (fun y => nth j (blist m (inject_Z (dot e y)) (inject_Z (dot l y))) 0) (pts k) / inject_Z k ^ Z.of_nat N) (seq 0 (S m))).
  assert (CS : forall k x, poly_at (fat cs k) x == qsum (fun y => poly_at (blist m (inject_Z (dot e y)) (inject_Z (dot l y))) x) (pts k) / inject_Z k ^ Z.of_nat N).
  { intros k x. unfold fat, cs. rewrite map_map.
    assert (G : forall (b : list Z -> list Q) d ys, (forall y, length (b y) = d) -> poly_at (map (fun j => qsum (fun y => nth j (b y) 0) ys / inject_Z k ^ Z.of_nat N) (seq 0 d)) x == qsum (fun y => poly_at (b y) x) ys / inject_Z k ^ Z.of_nat N).
    { clear. intros b d. revert b. induction d as [|d IH]; intros b ys LB.
      - cbn [seq map ExpSpec.poly_at]. rewrite qsum_zero by (intros y _; specialize (LB y); destruct (b y); [reflexivity|discriminate]). unfold Qdiv. ring.
      - cbn [seq map ExpSpec.poly_at]. rewrite <- seq_shift, map_map. specialize (IH (fun y => tl (b y)) ys). rewrite (map_ext _ (fun j => qsum (fun y => nth j (tl (b y)) 0) ys / inject_Z k ^ Z.of_nat N)).
        + rewrite IH by (intros y; specialize (LB y); destruct (b y); [discriminate|cbn in *; lia]).
          rewrite (qsum_ext (fun y => poly_at (b y) x) (fun y => nth 0 (b y) 0 + x * poly_at (tl (b y)) x)) by (intros y _; specialize (LB y); destruct (b y); [discriminate|reflexivity]). rewrite qsum_plus, qsum_scale. unfold Qdiv. ring.
        + intros j. f_equal. clear. induction ys as [|y ys IHy]; [reflexivity|]. cbn [qsum]. rewrite IHy. f_equal. destruct (b y); [destruct j; reflexivity|reflexivity]. }
    apply (G (fun y => blist m (inject_Z (dot e y)) (inject_Z (dot l y))) (S m) (pts k)). intros y. apply blist_len. }
  assert (CR : forall k K, (0 < k)%Z -> poly_at (fat cs k) (inject_Z K) == riemann_sum n (along n K l e) m k (pts k)).
  { intros k K Hk. rewrite CS, (riemann_scaled n (along n K l e) m k (pts k) Hk). change (inject_Z 1) with 1. rewrite Qmult_1_l. fold N. unfold Qdiv. apply Qmult_comp; [|reflexivity]. apply qsum_ext. intros y _. rewrite blist_at, along_dot, inject_Z_plus, inject_Z_mult by assumption.
    setoid_replace (inject_Z (dot e y) + inject_Z (dot l y) * inject_Z K) with (inject_Z K * inject_Z (dot l y) + inject_Z (dot e y)) by ring. reflexivity. }
  assert (GL : forall K, (K0 <= K)%Z -> tends (fun k => poly_at (fat cs k) (inject_Z K)) (generic_sum n m (along n K l e) cones)).
  { intros K HK. apply (tends_ext (fun k => riemann_sum n (along n K l e) m k (pts k))); [exists 1%Z; intros k Hk; symmetry; apply CR; lia|]. apply (generic_limit n rows vs tri Hn LR LV AV SP pts PT). intros v T r Hv HT Hr. apply (GK K HK). apply in_flat_map. exists (v, T). split; [|exact Hr]. unfold cones. apply in_flat_map. exists v. split; [exact Hv|now apply in_map]. }
  assert (FC : Forall converges cs) by (apply (interpolate (length cs) cs K0); [lia|]; intros K HK; eexists; apply GL, HK).
  assert (MS : exists Ms, Forall2 tends cs Ms). { clear -FC. induction FC as [|f cs (c & Hc) FC (Ms & IH)]; [exists []; constructor|]. exists (c :: Ms). now constructor. }
  destruct MS as (Ms & MS). assert (LM : length Ms = S m) by (rewrite <- (f2_length _ _ _ MS); unfold cs; now rewrite map_length, seq_length).
  assert (PM : forall x, tends (fun k => poly_at (fat cs k) x) (poly_at Ms x)).
  { intros x. clear -MS. induction MS as [|f c cs Ms Hf MS IH]; [exact (tends_const 0)|]. unfold fat in *. cbn [map ExpSpec.poly_at]. apply tends_plus; [exact Hf|now apply tends_scale]. }
  assert (EG : forall K, (K0 <= K)%Z -> generic_sum n m (along n K l e) cones == poly_at Ms (inject_Z K)) by (intros K HK; exact (tends_unique _ _ _ (GL K HK) (PM (inject_Z K)))).
  (* the leading coefficient of generic_sum *)
  destruct (sum_expansion (fun c => head m * weight c) (fun c K => rat_at (dot l (fst c)) (dot e (fst c)) N (map (fun r => (dot l r, dot e r)) (snd c)) K) (fun c => term N l e c) cones) as (L & L1 & L2).
  { intros c Hc. apply cone_expansion. intros f Hf. apply in_map_iff in Hf as (r & <- & Hr). cbn [fst snd]. eauto. }
  assert (T1 : tends (fun K => qsum (fun c => head m * weight c * rat_at (dot l (fst c)) (dot e (fst c)) N (map (fun r => (dot l r, dot e r)) (snd c)) K) cones) (nth m Ms 0)).
  { apply (tends_ext (fun K => poly_at Ms (inject_Z K) / inject_Z K ^ Z.of_nat m)); [|exact (poly_leading Ms m LM)]. exists K0. intros K HK. rewrite <- (EG K HK). pose proof (injk K ltac:(lia)) as PK. unfold generic_sum. fold (head m) N. rewrite <- qsum_scale. unfold Qdiv at 1. rewrite (Qmult_comm (qsum _ _)), <- qsum_scale. apply qsum_ext. intros c Hc. destruct (cones_in c Hc) as (_ & _ & L0 & _).
    fold (weight c). rewrite zprodl_product, (product_scaled K (snd c) l e n Ll Le ltac:(lia)), L0, along_dot by assumption. unfold rat_at. set (D := product_at (/ inject_Z K) (map (fun r => (dot l r, dot e r)) (snd c))).
    rewrite inject_Z_plus, inject_Z_mult. setoid_replace (inject_Z K * inject_Z (dot l (fst c)) + inject_Z (dot e (fst c))) with (inject_Z K * (inject_Z (dot l (fst c)) + inject_Z (dot e (fst c)) * / inject_Z K)) by (field; lra). rewrite Qmult_power. unfold N at 1. rewrite Qpow_add.
    assert (A1 : ~ inject_Z K ^ Z.of_nat n == 0) by (apply Qpower_not_0; lra). assert (A2 : ~ inject_Z K ^ Z.of_nat m == 0) by (apply Qpower_not_0; lra). unfold Qdiv. rewrite (Qinv_mult_distr _ D). generalize (/ D). intros iD. field. split; assumption. }
  assert (T2 : tends (fun K => poly_at L (inject_Z K)) (nth m Ms 0)).
  { apply (tends_eq _ (nth m Ms 0 - 0)); [ring|]. eapply tends_ext; [|exact (tends_minus _ _ _ _ T1 L2)]. exists 0%Z. intros K _. ring. }
  destruct (poly_bounded L _ T2) as [HD _].
  apply (tends_eq _ (nth m Ms 0)); [rewrite <- HD, L1, <- qsum_scale; apply qsum_ext; intros; ring|].
  assert (LM2 : tends (nth m cs (fun _ => 0)) (nth m Ms 0)).
  { clear -MS LM. assert (Lc : (m < length Ms)%nat) by lia. revert MS Lc. clearbody cs. clear. intros MS. generalize m as mm. induction MS as [|f c cs' Ms Hf MS IH]; intros mm Lc; [cbn in Lc; lia|]. destruct mm as [|mm]; [exact Hf|]. cbn [nth]. apply IH. cbn [length] in Lc. lia. }
  revert LM2. apply tends_ext. exists 1%Z. intros k Hk. unfold cs. rewrite (nth_indep _ (fun _ => 0) ((fun j k => qsum (fun y => nth j (blist m (inject_Z (dot e y)) (inject_Z (dot l y))) 0) (pts k) / inject_Z k ^ Z.of_nat N) 0%nat)) by (rewrite map_length, seq_length; lia). rewrite (map_nth (fun j k => qsum (fun y => nth j (blist m (inject_Z (dot e y)) (inject_Z (dot l y))) 0) (pts k) / inject_Z k ^ Z.of_nat N)), seq_nth by lia. cbn [Nat.add].
  rewrite (riemann_scaled n l m k (pts k) ltac:(lia)). change (inject_Z 1) with 1. rewrite Qmult_1_l. fold N. unfold Qdiv. apply Qmult_comp; [|reflexivity]. apply qsum_ext. intros y _. apply blist_last.
Qed.
(** ** Any direction that is not blocked *)
Definition triple_fs (h : Z * Z * Z -> Z) (ts : list (Z * Z * Z)) : list (Z * Z) := map (fun t => (fst (fst t), h t)) ts.
Definition dtends (F : Z -> nat -> Q) (A : nat -> Q) : Prop := forall j, tends (fun U => F U j / inject_Z U ^ Z.of_nat j) (A j).
Lemma dtends_over (c e f : Z) F A : c <> 0%Z -> dtends F A -> dtends (fun U => over_factor (c, (U * e + f)%Z) (F U)) (over_factor (c, e) A).
Proof.
  intros Nc H j. assert (NZ : ~ inject_Z c == 0) by (now apply injz_nz). induction j as [|j IH].
  - apply (tends_eq _ (A O / inject_Z c)); [reflexivity|]. eapply tends_ext; [|apply tends_div; [exact NZ|apply (H O)|apply (tends_const (inject_Z c))]]. exists 1%Z. intros U _. cbn. field. exact NZ.
  - apply (tends_eq _ ((A (S j) - (inject_Z e + inject_Z f * 0) * over_factor (c, e) A j) / inject_Z c)); [cbn [over_factor fst snd]; field; exact NZ|].
    eapply tends_ext; [|apply tends_div; [exact NZ| |apply (tends_const (inject_Z c))]; apply tends_minus; [apply (H (S j))|apply tends_mult; [apply tends_plus; [apply (tends_const (inject_Z e))|apply (tends_scale (inject_Z f)), tends_inverse]|exact IH]]].
    exists 1%Z. intros U HU. pose proof (injk U HU). cbv beta. cbn [over_factor fst snd]. rewrite inject_Z_plus, inject_Z_mult, Qpow_S. field. split; [exact NZ|]. split; [apply Qpower_not_0; lra|lra].
Qed.
Lemma dtends_binomial p q s N : dtends (fun U => binomial_series p (U * q + s) N) (binomial_series p q N).
Proof.
  intros j. unfold binomial_series. apply (tends_eq _ (inject_Z (binom N j * p ^ Z.of_nat (N - j)) * (inject_Z q + inject_Z s * 0) ^ Z.of_nat j)).
  - setoid_replace (inject_Z q + inject_Z s * 0) with (inject_Z q) by ring. rewrite <- inj_pow, <- inject_Z_mult. reflexivity.
  - eapply tends_ext; [|apply tends_scale, tends_pow, tends_plus; [apply (tends_const (inject_Z q))|apply (tends_scale (inject_Z s)), tends_inverse]]. exists 1%Z. intros U HU. pose proof (injk U HU). cbv beta. rewrite (inject_Z_mult _ ((U * q + s) ^ _)%Z), inj_pow, inject_Z_plus, inject_Z_mult.
    setoid_replace (inject_Z U * inject_Z q + inject_Z s) with (inject_Z U * (inject_Z q + inject_Z s * / inject_Z U)) by (field; lra). rewrite Qmult_power. field. apply Qpower_not_0. lra.
Qed.
Lemma constant_limit p q s N ts : (forall t, In t ts -> fst (fst t) <> 0 \/ snd (fst t) <> 0)%Z ->
  tends (fun U => constant_coefficient p (U * q + s) N (triple_fs (fun t => (U * snd (fst t) + snd t)%Z) ts)) (constant_coefficient p q N (triple_fs (fun t => snd (fst t)) ts)).
Proof.
  intros H.
  assert (RG : forall h, regular (triple_fs h ts) = triple_fs h (filter (fun t => negb (fst (fst t) =? 0)%Z) ts)) by (intros h; unfold regular, triple_fs; clear; induction ts as [|t ts IH]; [reflexivity|]; cbn [map filter fst]; destruct (fst (fst t) =? 0)%Z; cbn [negb map]; [exact IH|now rewrite IH]).
  assert (VN : forall h, vanishing (triple_fs h ts) = map h (filter (fun t => (fst (fst t) =? 0)%Z) ts)) by (intros h; unfold vanishing, triple_fs; clear; induction ts as [|t ts IH]; [reflexivity|]; cbn [map filter fst]; destruct (fst (fst t) =? 0)%Z; cbn [map snd]; [now rewrite IH|exact IH]).
  set (rs := filter (fun t => negb (fst (fst t) =? 0)%Z) ts) in *. set (zs := filter (fun t => (fst (fst t) =? 0)%Z) ts) in *.
  assert (NR : Forall (fun t => fst (fst t) <> 0%Z) rs) by (apply Forall_forall; intros t Ht; unfold rs in Ht; apply filter_In in Ht as [_ Ht]; now apply negb_true_iff, Z.eqb_neq in Ht).
  assert (NV : Forall (fun t => snd (fst t) <> 0%Z) zs) by (apply Forall_forall; intros t Ht; unfold zs in Ht; apply filter_In in Ht as [H0 Ht]; apply Z.eqb_eq in Ht; destruct (H t H0); [contradiction|assumption]).
  assert (DT : dtends (fun U => over_factors (triple_fs (fun t => (U * snd (fst t) + snd t)%Z) rs) (binomial_series p (U * q + s) N)) (over_factors (triple_fs (fun t => snd (fst t)) rs) (binomial_series p q N))).
  { clear -NR. unfold triple_fs. induction NR as [|t rs Ht NR IH]; cbn [map over_factors fold_right]; [apply dtends_binomial|]. apply (dtends_over (fst (fst t)) (snd (fst t)) (snd t)); [exact Ht|exact IH]. }
  assert (PR : tends (fun U => inject_Z (product (map (fun t => (U * snd (fst t) + snd t)%Z) zs)) / inject_Z U ^ Z.of_nat (length zs)) (inject_Z (product (map (fun t => snd (fst t)) zs)))).
  { clear. induction zs as [|t zs IH]; [exact (tends_const 1)|]. cbn [map product fold_right length]. fold (product (map (fun t => snd (fst t)) zs)).
    apply (tends_eq _ ((inject_Z (snd (fst t)) + inject_Z (snd t) * 0) * inject_Z (product (map (fun t => snd (fst t)) zs)))); [rewrite inject_Z_mult; ring|].
    eapply tends_ext; [|apply tends_mult; [apply tends_plus; [apply (tends_const (inject_Z (snd (fst t))))|apply (tends_scale (inject_Z (snd t))), tends_inverse]|exact IH]]. exists 1%Z. intros U HU. pose proof (injk U HU). cbv beta. fold (product (map (fun t => (U * snd (fst t) + snd t)%Z) zs)). rewrite inject_Z_mult, inject_Z_plus, inject_Z_mult, Qpow_S. field. split; [apply Qpower_not_0; lra|lra]. }
  assert (NP : ~ inject_Z (product (map (fun t => snd (fst t)) zs)) == 0).
  { apply injz_nz. clear -NV. induction NV as [|t zs Ht NV IH]; [discriminate|]. cbn [map product fold_right]. fold (product (map (fun t => snd (fst t)) zs)). nia. }
  unfold constant_coefficient. rewrite RG, VN. rewrite map_length. eapply tends_ext; [|apply tends_div; [exact NP|apply (DT (length zs))|exact PR]]. exists 1%Z. intros U HU. pose proof (injk U HU). cbv beta. rewrite RG, VN, map_length. unfold Qdiv. rewrite Qinv_mult_distr, Qinv_involutive. assert (X : ~ inject_Z U ^ Z.of_nat (length zs) == 0) by (apply Qpower_not_0; lra). generalize (/ inject_Z (product (map (fun t : Z * Z * Z => (U * snd (fst t) + snd t)%Z) zs))). intros iP. field. exact X.
Qed.
Lemma row_nonzero T r : length T = n -> Forall (fun r => length r = n) T -> lin_indep n T -> In r T -> exists k, (k < n)%nat /\ nth k r 0%Z <> 0%Z.
Proof.
  intros LT FT LI Hr. apply (In_nth _ _ []) in Hr as (i & Hi & E). destruct (some_nonzero n (fun k => nth k r 0%Z)) as [X|Z0]; [exact X|exfalso]. apply (indep_det n T LI).
  rewrite (det_expand n (ent T) i ltac:(lia)). apply ZMat.zsum_zero. intros k Hk. unfold ent. rewrite E, Z0 by exact Hk. ring.
Qed.
Theorem lawrence_limit l e m : (1 <= m)%nat -> length l = n -> length e = n -> (forall c, In c cones -> dot l (fst c) = 0%Z \/ forall r, In r (snd c) -> dot l r = 0%Z -> dot e r <> 0%Z) ->
  tends (fun k => riemann_sum n l m k (pts k)) (head m * qsum (fun c => weight c * term (n + m) l e c) cones).
Proof.
  intros Hm Ll Le UB. destruct (generic_exists n (flat_map snd cones)) as (f & Lf & GF).
  { intros r Hr. apply in_flat_map in Hr as (c & Hc & Hr). destruct (cones_in c Hc) as (_ & _ & L1 & LI & F1). split; [rewrite Forall_forall in F1; auto|]. exact (row_nonzero (snd c) r L1 F1 LI Hr). }
  destruct (along_generic n e f (flat_map snd cones) Le Lf) as (U0 & U1 & GU); [intros r Hr; right; rewrite <- zdot_dot; auto|].
  assert (GD : forall U, (U0 <= U)%Z -> tends (fun k => riemann_sum n l m k (pts k)) (head m * qsum (fun c => weight c * term (n + m) l (along n U e f) c) cones)).
  { intros U HU. apply generic_direction; [exact Ll|apply along_len|]. intros c r Hc Hr. right. apply (GU U HU). apply in_flat_map. eauto. }
  apply (tends_eq _ (head m * qsum (fun c => weight c * term (n + m) l (along n U0 e f) c) cones)); [|apply GD; lia].
  apply (tends_unique (fun U => head m * qsum (fun c => weight c * term (n + m) l (along n U e f) c) cones)).
  - apply (tends_ext (fun _ => head m * qsum (fun c => weight c * term (n + m) l (along n U0 e f) c) cones)); [|apply tends_const]. exists U0. intros U HU. exact (tends_unique _ _ _ (GD U0 ltac:(lia)) (GD U HU)).
  - apply tends_scale, tends_qsum. intros c Hc. apply tends_scale. destruct (cones_in c Hc) as (_ & _ & L1 & _). unfold term. destruct (UB c Hc) as [E0|ND].
    + rewrite E0. assert (Z0 : forall q fs, length fs = n -> constant_coefficient 0 q (n + m) fs == 0) by (intros q fs Lfs; apply cc_zero; pose proof (vanishing_len fs); lia).
      apply (tends_eq _ 0); [symmetry; apply Z0; now rewrite map_length|]. apply (tends_ext (fun _ => 0)); [|apply tends_const]. exists 0%Z. intros U _. symmetry. apply Z0. now rewrite map_length.
    + set (ts := map (fun r => (dot l r, dot e r, dot f r)) (snd c)).
      assert (E1 : map (fun r => (dot l r, dot e r)) (snd c) = triple_fs (fun t => snd (fst t)) ts) by (unfold triple_fs, ts; rewrite map_map; reflexivity). rewrite E1.
      eapply tends_ext; [|apply (constant_limit (dot l (fst c)) (dot e (fst c)) (dot f (fst c)) (n + m) ts)].
      * exists 0%Z. intros U _. assert (E2 : map (fun r => (dot l r, dot (along n U e f) r)) (snd c) = triple_fs (fun t => (U * snd (fst t) + snd t)%Z) ts) by (unfold triple_fs, ts; rewrite map_map; apply map_ext; intros r; cbn [fst snd]; now rewrite along_dot). rewrite E2, along_dot by assumption. reflexivity.
      * intros t Ht. unfold ts in Ht. apply in_map_iff in Ht as (r & <- & Hr). cbn [fst snd]. destruct (Z.eq_dec (dot l r) 0) as [E|E]; [right; now apply ND|now left].
Qed.
End All.
