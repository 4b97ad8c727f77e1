(** Interval bounds of the residues of cones. *)
From Coq Require Import QArith Qfield Lqa.
From Verif Require Import Common SmithSpec ZMat Hermite HermiteProofs Det DetProofs RatVec RatVecSpec RatVecProofs Piped PipedSpec PipedProofs PipedProofs2 PipedProofs3 PipedProofs4 ConeSpec Irrational IntComb IntegMath Exponential ExpSpec ExpProofs ExpProofs2 ExpProofs4 Barvinok BarvinokProofs2 Count CountProofs CountProofs2 CountProofs4 Approx.
Open Scope Z_scope.

(** Sums of powers of integers between two bounds. *)
Definition powsum (k : nat) (l : list Z) : Z := fold_right (fun s a => s ^ Z.of_nat k + a) 0 l.
Lemma sums_powsum n sps k : (k <= n)%nat -> nth k (sums_of_powers n sps) 0 = powsum k sps.
Proof.
  intros Hk. unfold sums_of_powers.
  assert (G : forall sum, length sum = S n -> nth k (fold_left (fun sum inner => add_powers sum inner 1) sps sum) 0 = nth k sum 0 + powsum k sps).
  { induction sps as [|s sps IH]; intros sum L; cbn [fold_left powsum fold_right]; [lia|]. rewrite IH by (now rewrite add_powers_len). rewrite add_powers_nth by lia. change (fold_right (fun s0 a : Z => s0 ^ Z.of_nat k + a) 0 sps) with (powsum k sps). lia. }
  rewrite G by (rewrite repeat_length; lia). rewrite nth_repeat. lia.
Qed.
Lemma powsum_between k l lo hi : (forall s, In s l -> lo <= s ^ Z.of_nat k <= hi) -> Z.of_nat (length l) * lo <= powsum k l <= Z.of_nat (length l) * hi.
Proof.
  induction l as [|s l IH]; intros H; cbn [powsum fold_right length]; [lia|]. fold (powsum k l). specialize (IH (fun t Ht => H t (or_intror Ht))). pose proof (H s (or_introl eq_refl)). lia.
Qed.
Lemma pow_mono_pos a b k : 0 <= a <= b -> 0 <= a ^ Z.of_nat k <= b ^ Z.of_nat k.
Proof. intros H. split; [apply Z.pow_nonneg; lia|apply Z.pow_le_mono_l; lia]. Qed.
Lemma pow_opp_even a k : Nat.even k = true -> (- a) ^ Z.of_nat k = a ^ Z.of_nat k.
Proof. intros E. apply Z.pow_opp_even. apply Nat.even_spec in E as [m ->]. exists (Z.of_nat m). lia. Qed.
Lemma pow_opp_odd a k : Nat.even k = false -> (- a) ^ Z.of_nat k = - a ^ Z.of_nat k.
Proof. intros E. apply Z.pow_opp_odd. assert (O : Nat.odd k = true) by (unfold Nat.odd; now rewrite E). apply Nat.odd_spec in O as [m ->]. exists (Z.of_nat m). lia. Qed.
Lemma pow_odd_mono a b k : Nat.even k = false -> a <= b -> a ^ Z.of_nat k <= b ^ Z.of_nat k.
Proof.
  intros E H. destruct (Z.le_gt_cases 0 a) as [A|A]; [apply pow_mono_pos; lia|]. destruct (Z.le_gt_cases b 0) as [B|B].
  - pose proof (pow_mono_pos (- b) (- a) k ltac:(lia)) as M. rewrite !pow_opp_odd in M by exact E. lia.
  - pose proof (pow_mono_pos 0 (- a) k ltac:(lia)) as M. rewrite pow_opp_odd in M by exact E. pose proof (Z.pow_nonneg b (Z.of_nat k) ltac:(lia)). lia.
Qed.
Lemma power_bounds_len k : forall e lo up lk uk, length (power_bounds k e lo up lk uk) = k.
Proof. induction k as [|k IH]; intros; cbn [power_bounds length]; [reflexivity|]. now rewrite IH. Qed.
Lemma power_bounds_ok m : forall k e lo up j s, e = Nat.even k -> lo <= s <= up -> (j < m)%nat ->
  let b := nth j (power_bounds m e lo up (lo ^ Z.of_nat k) (up ^ Z.of_nat k)) (0, 0) in fst b <= s ^ Z.of_nat (k + j) <= snd b.
Proof.
  induction m as [|m IH]; intros k e lo up j s Ee Hs Hj; [lia|]. cbn [power_bounds]. destruct j as [|j]; cbn [nth].
  - rewrite Nat.add_0_r. destruct e; symmetry in Ee.
    + destruct (Z.ltb_spec up 0) as [U|U]; cbn [fst snd].
      * pose proof (pow_mono_pos (- up) (- s) k ltac:(lia)) as M1. pose proof (pow_mono_pos (- s) (- lo) k ltac:(lia)) as M2. rewrite !pow_opp_even in M1, M2 by exact Ee. lia.
      * destruct (Z.ltb_spec 0 lo) as [L|L]; cbn [fst snd].
        -- pose proof (pow_mono_pos lo s k ltac:(lia)). pose proof (pow_mono_pos s up k ltac:(lia)). lia.
        -- assert (B : 0 <= s ^ Z.of_nat k /\ (s ^ Z.of_nat k <= lo ^ Z.of_nat k \/ s ^ Z.of_nat k <= up ^ Z.of_nat k)).
           { destruct (Z.le_gt_cases 0 s) as [S0|S0]; [pose proof (pow_mono_pos s up k ltac:(lia)); lia|]. pose proof (pow_mono_pos (- s) (- lo) k ltac:(lia)) as M. rewrite !pow_opp_even in M by exact Ee. lia. }
           destruct (Z.ltb_spec (up ^ Z.of_nat k) (lo ^ Z.of_nat k)); lia.
    + cbn [fst snd]. pose proof (pow_odd_mono lo s k Ee ltac:(lia)). pose proof (pow_odd_mono s up k Ee ltac:(lia)). lia.
  - replace (lo ^ Z.of_nat k * lo) with (lo ^ Z.of_nat (S k)) by (rewrite Nat2Z.inj_succ, Z.pow_succ_r by lia; ring). replace (up ^ Z.of_nat k * up) with (up ^ Z.of_nat (S k)) by (rewrite Nat2Z.inj_succ, Z.pow_succ_r by lia; ring). replace (k + S j)%nat with (S k + j)%nat by lia. apply IH; [|exact Hs|lia]. rewrite Nat.even_succ. unfold Nat.odd. now rewrite Ee.
Qed.
(** One term of the sum. *)
Lemma term_between (coef adet l u S0 : Z) (w : Q) : adet * l <= S0 <= adet * u ->
  let lc := (inject_Z (coef * l * adet) * w)%Q in let uc := (inject_Z (coef * u * adet) * w)%Q in
  let b := if Qlt_le_dec lc uc then (lc, uc) else (uc, lc) in (fst b <= inject_Z coef * (inject_Z S0 * w) <= snd b)%Q.
Proof.
  intros H lc uc b. assert (E : (lc == (inject_Z (adet * l)) * (inject_Z coef * w) /\ uc == (inject_Z (adet * u)) * (inject_Z coef * w))%Q) by (unfold lc, uc; rewrite !inject_Z_mult; split; ring).
  destruct E as [E1 E2]. setoid_replace (inject_Z coef * (inject_Z S0 * w))%Q with (inject_Z S0 * (inject_Z coef * w))%Q by ring. set (q := (inject_Z coef * w)%Q) in *.
  assert (L1 : (inject_Z (adet * l) <= inject_Z S0)%Q) by (rewrite <- Zle_Qle; lia). assert (L2 : (inject_Z S0 <= inject_Z (adet * u))%Q) by (rewrite <- Zle_Qle; lia).
  unfold b. destruct (Qlt_le_dec lc uc) as [C|C]; cbn [fst snd]; rewrite E1, E2 in *; split; destruct (Qlt_le_dec q 0); nra.
Qed.
Lemma total_between coef adet bs : forall ws acc b (Ss : nat -> Z), total_bounds coef adet bs ws acc = Ok b -> (length bs <= length ws)%nat -> (forall j, (j < length bs)%nat -> adet * fst (nth j bs (0, 0)) <= Ss j <= adet * snd (nth j bs (0, 0))) ->
  (fst b <= fst acc + inject_Z coef * sum_to (length bs) (fun j => inject_Z (Ss j) * nth j ws 0) /\ snd acc + inject_Z coef * sum_to (length bs) (fun j => inject_Z (Ss j) * nth j ws 0) <= snd b)%Q.
Proof.
  induction bs as [|[l u] bs IH]; intros ws acc b Ss E L H; cbn [total_bounds] in E.
  - injection E as <-. cbn [length sum_to]. split; lra.
  - destruct ws as [|w ws]; [discriminate|]. cbn [length] in *.
    pose proof (term_between coef adet l u (Ss 0%nat) w (H 0%nat ltac:(lia))) as T. cbv zeta in T.
    destruct (IH ws _ b (fun j => Ss (S j)) E ltac:(lia) (fun j Hj => H (S j) ltac:(lia))) as [I1 I2]. cbn [fst snd] in I1, I2.
    assert (SH : (sum_to (S (length bs)) (fun j => inject_Z (Ss j) * nth j (w :: ws) 0) == inject_Z (Ss 0%nat) * w + sum_to (length bs) (fun j => inject_Z (Ss (S j)) * nth j ws 0))%Q) by exact (sum_to_head (length bs) (fun j => inject_Z (Ss j) * nth j (w :: ws) 0)%Q).
    set (X := sum_to (length bs) (fun j => (inject_Z (Ss (S j)) * nth j ws 0)%Q)) in *. set (Y := sum_to (S (length bs)) (fun j => (inject_Z (Ss j) * nth j (w :: ws) 0)%Q)) in *. clearbody X Y. rewrite SH, Qmult_plus_distr_r. destruct T as [T1 T2].
    split; lra.
Qed.
Lemma total_bounds_some coef adet bs : forall ws acc, (length bs <= length ws)%nat -> exists b, total_bounds coef adet bs ws acc = Ok b.
Proof. induction bs as [|[l u] bs IH]; intros ws acc L; cbn [total_bounds]; [eauto|]. destruct ws as [|w ws]; cbn [length] in L; [lia|]. apply IH. lia. Qed.

(** Bounds of <g, x> on the parallelepiped. *)
Lemma fold_add_ray ps : forall b (lam : nat -> Q) (m : Q), (inject_Z (fst b) <= m <= inject_Z (snd b))%Q -> (forall k, (k < length ps)%nat -> 0 <= lam k < 1)%Q ->
  let b' := fold_left add_ray ps b in (inject_Z (fst b') <= m + sumq (length ps) (fun k => lam k * inject_Z (nth k ps 0%Z)) <= inject_Z (snd b'))%Q.
Proof.
  induction ps as [|p ps IH]; intros b lam m Hm HL; cbn [fold_left length]; [cbn [sumq]; lra|].
  assert (E : (m + sumq (S (length ps)) (fun k => lam k * inject_Z (nth k (p :: ps) 0%Z)) == (m + lam 0%nat * inject_Z p) + sumq (length ps) (fun k => lam (S k) * inject_Z (nth k ps 0%Z)))%Q).
  { assert (HD : forall j f, (sumq (S j) f == f 0%nat + sumq j (fun k => f (S k)))%Q) by (induction j as [|j IHj]; intros f; [cbn [sumq]; ring|]; change (sumq (S (S j)) f) with (sumq (S j) f + f (S j))%Q; rewrite IHj; cbn [sumq]; ring). rewrite HD. cbn [nth]. ring. }
  rewrite E. apply IH; [|intros k Hk; apply HL; cbn [length]; lia]. pose proof (HL 0%nat ltac:(cbn [length]; lia)) as H0. unfold add_ray. destruct (Z.ltb_spec p 0) as [C|C]; [|destruct (Z.ltb_spec 0 p) as [C2|C2]]; cbn [fst snd].
  - assert (P0 : (inject_Z p <= 0)%Q) by (change 0%Q with (inject_Z 0); rewrite <- Zle_Qle; lia). rewrite inject_Z_plus. split; nra.
  - assert (P0 : (0 <= inject_Z p)%Q) by (change 0%Q with (inject_Z 0); rewrite <- Zle_Qle; lia). rewrite inject_Z_plus. split; nra.
  - assert (p = 0) as -> by lia. change (inject_Z 0) with 0%Q. split; lra.
Qed.
Lemma vertex_between n g v : usable n v -> length g = n -> exists b, vertex_bounds n g v = Ok b /\ (inject_Z (fst b) <= sumq n (fun i => inject_Z (nth i g 0%Z) * coord v i) <= inject_Z (snd b))%Q.
Proof.
  intros [(Pr & k & DP & R) Dv] Lg. destruct (scale_exact Pr k v DP R) as (v' & w & s & SE & Hs & Lw & SV & _). rewrite Dv in SE, Lw, SV. unfold vertex_bounds. rewrite SE. cbn [bind]. rewrite (proj2 (Z.eqb_neq s 0) Hs). eexists. split; [reflexivity|]. cbn [fst snd].
  set (X := sumq n (fun i => (inject_Z (nth i g 0%Z) * coord v i)%Q)).
  assert (E : (inject_Z (zdot g w) == inject_Z s * X)%Q).
  { unfold zdot, X. rewrite Lg, <- sumq_inj, <- sumq_scal. apply sumq_ext. intros i Hi. rewrite inject_Z_mult, (SV i Hi). ring. }
  clearbody X. set (p := zdot g w) in *. pose proof (Z.div_mod p s Hs) as DM. set (q := p / s) in *. set (r := p mod s) in *.
  assert (EQ : (inject_Z s * (X - inject_Z q) == inject_Z r)%Q) by (setoid_replace (inject_Z s * (X - inject_Z q))%Q with (inject_Z s * X - inject_Z s * inject_Z q)%Q by ring; rewrite <- E, DM, inject_Z_plus, inject_Z_mult; ring).
  assert (RB : 0 <= r < s \/ s < r <= 0). { destruct (Z.lt_trichotomy s 0) as [H|[H|H]]; [right; apply Z.mod_neg_bound; lia|lia|left; apply Z.mod_pos_bound; lia]. }
  destruct (Z.eqb_spec r 0) as [R0|R0].
  - rewrite R0 in EQ. change (inject_Z 0) with 0%Q in EQ. apply Qmult_integral in EQ as [EQ|EQ]; [exfalso; apply Hs; unfold Qeq in EQ; cbn in EQ; lia|]. split; lra.
  - rewrite inject_Z_plus. change (inject_Z 1) with 1%Q. destruct RB as [[R1 R2]|[R1 R2]].
    + assert (S0 : (0 < inject_Z s)%Q) by (change 0%Q with (inject_Z 0); rewrite <- Zlt_Qlt; lia). assert (A1 : (0 <= inject_Z r)%Q) by (change 0%Q with (inject_Z 0); rewrite <- Zle_Qle; lia). assert (A2 : (inject_Z r < inject_Z s)%Q) by (rewrite <- Zlt_Qlt; lia). split; nra.
    + assert (S0 : (inject_Z s < 0)%Q) by (change 0%Q with (inject_Z 0); rewrite <- Zlt_Qlt; lia). assert (A1 : (inject_Z r <= 0)%Q) by (change 0%Q with (inject_Z 0); rewrite <- Zle_Qle; lia). assert (A2 : (inject_Z s < inject_Z r)%Q) by (rewrite <- Zlt_Qlt; lia). split; nra.
Qed.
Lemma point_between n g v rays x b0 : length g = n -> length rays = n -> in_parallelepiped n v rays x -> (inject_Z (fst b0) <= sumq n (fun i => inject_Z (nth i g 0%Z) * coord v i) <= inject_Z (snd b0))%Q ->
  let b := fold_left add_ray (map (zdot g) rays) b0 in fst b <= zdot g x <= snd b.
Proof.
  intros Lg Lr (Lx & lam & HL & E) H0 b. pose proof (fold_add_ray (map (zdot g) rays) b0 lam _ H0) as F. rewrite map_length, Lr in F. specialize (F HL). cbv zeta in F. fold b in F.
  assert (EX : (inject_Z (zdot g x) == sumq n (fun i => inject_Z (nth i g 0%Z) * coord v i) + sumq n (fun k => lam k * inject_Z (nth k (map (zdot g) rays) 0%Z)))%Q).
  { unfold zdot at 1. rewrite Lg, <- sumq_inj. rewrite (sumq_ext n _ (fun i => inject_Z (nth i g 0%Z) * coord v i + sumq n (fun k => lam k * (inject_Z (nth i g 0%Z) * inject_Z (vat rays k i))))%Q).
    - rewrite sumq_add. apply Qplus_comp; [reflexivity|]. rewrite sumq_swap. apply sumq_ext. intros k Hk. rewrite sumq_scal. apply Qmult_comp; [reflexivity|]. rewrite (nth_indep (map (zdot g) rays) 0%Z (zdot g [])) by (rewrite map_length; lia). rewrite map_nth. unfold zdot. rewrite Lg, <- sumq_inj. apply sumq_ext. intros i Hi. unfold vat. now rewrite inject_Z_mult.
    - intros i Hi. rewrite inject_Z_mult, (E i Hi), Qmult_plus_distr_r, <- sumq_scal. apply Qplus_comp; [reflexivity|]. apply sumq_ext. intros k Hk. ring. }
  rewrite <- EX in F. rewrite <- !Zle_Qle in F. exact F.
Qed.
(** The bounds enclose the residue of the cone. *)
Theorem bounds_enclose n g v d pts : usable n v -> length g = n -> length (s_rays (b_cone d)) = n -> (forall p, In p pts -> in_parallelepiped n v (s_rays (b_cone d)) p) -> Z.of_nat (length pts) = Z.abs (s_det (b_cone d)) ->
  match cone_bounds n g v d with
  | Ok b => zprodl (map (zdot g) (s_rays (b_cone d))) <> 0 /\ (fst b <= ExpProofs4.value g (cone_of_item g ([], v, d, pts)) <= snd b)%Q
  | Err e => e = Thrown /\ zprodl (map (zdot g) (s_rays (b_cone d))) = 0
  end.
Proof.
  intros UV Lg Lr HP LP. unfold cone_bounds. destruct (Z.eq_dec (zprodl (map (zdot g) (s_rays (b_cone d)))) 0) as [Z0|NZ]; [rewrite (proj2 (weights_thrown g _) Z0); cbn [bind]; auto|].
  destruct (weights_ok g (s_rays (b_cone d)) NZ) as (ws & EW & LW & _). rewrite EW. cbn [bind]. rewrite Lr, Nat.eqb_refl. cbn [negb]. destruct (vertex_between n g v UV Lg) as (b0 & E0 & H0). rewrite E0. cbn [bind].
  set (b := fold_left add_ray (map (zdot g) (s_rays (b_cone d))) b0). set (bs := power_bounds (n + 1) true (fst b) (snd b) 1 1). assert (Lb : length bs = S n) by (unfold bs; rewrite power_bounds_len; lia).
  destruct (total_bounds_some (b_coef d) (Z.abs (s_det (b_cone d))) bs ws (0%Q, 0%Q)) as (t & ET); [lia|]. rewrite ET. split; [exact NZ|].
  destruct (total_between (b_coef d) (Z.abs (s_det (b_cone d))) bs ws (0%Q, 0%Q) t (fun k => powsum k (map (zdot g) pts)) ET) as [T1 T2]; [lia| |].
  - intros j Hj. rewrite <- LP. rewrite <- (map_length (zdot g) pts). apply powsum_between. intros s Hs. apply in_map_iff in Hs as (p & <- & Hp). pose proof (point_between n g v (s_rays (b_cone d)) p b0 Lg Lr (HP p Hp) H0) as PB. cbv zeta in PB. fold b in PB.
    pose proof (power_bounds_ok (n + 1) 0 true (fst b) (snd b) j (zdot g p) eq_refl PB ltac:(lia)) as PO. cbv zeta in PO. change (fst b ^ Z.of_nat 0) with 1 in PO. change (snd b ^ Z.of_nat 0) with 1 in PO. exact PO.
  - cbn [fst snd] in T1, T2.
    assert (EV : (ExpProofs4.value g (cone_of_item g ([], v, d, pts)) == inject_Z (b_coef d) * sum_to (length bs) (fun j => inject_Z (powsum j (map (zdot g) pts)) * nth j ws 0))%Q); [|split; lra].
    destruct (single_ok n g (cone_of_item g ([], v, d, pts))) as (q & Eq & Vq); [exact NZ|cbn [cone_of_item e_rays]; lia|]. unfold ExpProofs4.value. rewrite <- Vq. unfold residue_single in Eq. cbn [cone_of_item e_rays e_sps e_coef] in Eq. rewrite EW in Eq. cbn [bind] in Eq. destruct (_ <? _)%nat; [discriminate|]. injection Eq as <-. apply Qmult_comp; [reflexivity|]. rewrite LW, Lr, Lb. apply sum_to_ext. intros k Hk. rewrite sums_powsum by lia. reflexivity.
Qed.
