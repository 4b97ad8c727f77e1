(** Lists of cones, restarts, and the Ehrhart polynomial. *)
From Coq Require Import QArith Qfield Qpower Lqa.
From Verif Require Import Common IntegSpec IntegMath DecompProofs DecompProofs4 InterpProofs2 Series BernoulliProofs ZMat HermiteProofs Piped Exponential ExpSpec ExpProofs ExpProofs2 ExpProofs3.
Open Scope Q_scope.

Definition value (g : list Z) (c : econe) : Q := inject_Z (e_coef c) * resF (map (zdot g) (e_rays c)) (e_sps c) (length (e_rays c)).
Definition generic (g : list Z) (c : econe) : Prop := zprodl (map (zdot g) (e_rays c)) <> 0%Z.
Lemma generic_dec g c : {generic g c} + {~ generic g c}.
Proof. unfold generic. destruct (Z.eq_dec (zprodl (map (zdot g) (e_rays c))) 0); [right; tauto|left; auto]. Qed.
Lemma residue_cones_ok n g cs : Forall (fun c => generic g c /\ (length (e_rays c) <= n)%nat) cs -> forall acc, exists q, residue_cones n g cs acc = Ok q /\ q == acc + qsum (value g) cs.
Proof.
  induction cs as [|c cs IH]; intros F acc; cbn [residue_cones qsum]; [exists acc; split; [reflexivity|ring]|]. destruct (Forall_inv F) as [G L]. destruct (single_ok n g c G L) as (q & E & V). rewrite E. cbn [bind]. destruct (IH (Forall_inv_tail F) (acc + q)) as (q' & E' & V'). exists q'. split; auto. rewrite V', V. unfold value. ring.
Qed.
Lemma residue_single_thrown n g c : ~ generic g c -> residue_single n g c = Err Thrown.
Proof. intros G. unfold residue_single. rewrite (proj2 (weights_thrown g (e_rays c))); [reflexivity|]. unfold generic in G. destruct (Z.eq_dec (zprodl (map (zdot g) (e_rays c))) 0); tauto. Qed.
Lemma residue_cones_thrown n g cs : Forall (fun c => (length (e_rays c) <= n)%nat) cs -> ~ Forall (generic g) cs -> forall acc, residue_cones n g cs acc = Err Thrown.
Proof.
  induction cs as [|c cs IH]; intros L NF acc; [exfalso; apply NF; constructor|]. cbn [residue_cones]. destruct (generic_dec g c) as [G|G].
  - destruct (single_ok n g c G (Forall_inv L)) as (q & E & _). rewrite E. cbn [bind]. apply IH; [exact (Forall_inv_tail L)|]. intros F. apply NF. now constructor.
  - rewrite residue_single_thrown by auto. reflexivity.
Qed.
(** Ehrhart *)
Lemma poly_at_sum l t : poly_at l t == sum_to (length l) (fun j => nth j l 0 * t ^ Z.of_nat j).
Proof.
  induction l as [|a l IH]; [reflexivity|]. cbn [poly_at length]. rewrite sum_to_head, IH. cbn [nth]. rewrite !sum_to_qsum, <- qsum_scale. apply Qplus_comp; [cbn; ring|]. apply qsum_ext. intros i _. rewrite Qpow_S. ring.
Qed.
Definition ehr_x (n : nat) (w : list Q) (sum : list Z) (i : nat) : Q := sum_to (n + 1 - i) (fun k => inject_Z (binom (i + k) i) * nth (i + k) w 0 * inject_Z (nth k sum 0%Z)).
Lemma ehrhart_len n w sum coef e cs : forall i pw, length (ehrhart_loop i n w sum coef e pw cs) = length cs.
Proof. induction cs as [|a cs IH]; intros i pw; cbn [ehrhart_loop length]; auto. Qed.
Lemma ehrhart_nth n w sum coef e cs : forall i pw j, (j < length cs)%nat -> nth j (ehrhart_loop i n w sum coef e pw cs) 0 == nth j cs 0 + inject_Z coef * (inject_Z pw * inject_Z e ^ Z.of_nat j) * ehr_x n w sum (i + j).
Proof.
  induction cs as [|a cs IH]; intros i pw [|j] H; cbn [length] in H; try lia; cbn [ehrhart_loop nth].
  - rewrite Nat.add_0_r. unfold ehr_x. change (Z.of_nat 0) with 0%Z. rewrite Qpower_0_r. ring.
  - rewrite IH by lia. rewrite inject_Z_mult, Qpow_S. replace (i + S j)%nat with (S i + j)%nat by lia. ring.
Qed.
Lemma exp_sum_shift x ss : exp_sum (map (fun s => (s + x)%Z) ss) ~= conv (sexp (inject_Z x)) (exp_sum ss).
Proof.
  intros n. unfold exp_sum. rewrite qsum_map, (conv_qsum_r (fun s => sexp (inject_Z s))). apply qsum_ext. intros s _. rewrite exp_add, <- inject_Z_plus, Z.add_comm. reflexivity.
Qed.
(** exchanging the order of summation *)
Lemma sum_to_scale k c f : sum_to k (fun i => c * f i) == c * sum_to k f.
Proof. rewrite !sum_to_qsum. apply qsum_scale. Qed.
Lemma sum_to_plus k f g : sum_to k (fun i => f i + g i) == sum_to k f + sum_to k g.
Proof. rewrite !sum_to_qsum. apply qsum_plus. Qed.
Lemma triangle (f : nat -> nat -> Q) n : sum_to (S n) (fun i => sum_to (n + 1 - i) (fun k => f i (i + k)%nat)) == sum_to (S n) (fun l => sum_to (S l) (fun i => f i l)).
Proof.
  induction n as [|n IH]; [reflexivity|].
  change (sum_to (S (S n)) (fun l => sum_to (S l) (fun i => f i l))) with (sum_to (S n) (fun l => sum_to (S l) (fun i => f i l)) + sum_to (S (S n)) (fun i => f i (S n))). rewrite <- IH.
  change (sum_to (S (S n)) (fun i => sum_to (S n + 1 - i) (fun k => f i (i + k)%nat))) with (sum_to (S n) (fun i => sum_to (S n + 1 - i) (fun k => f i (i + k)%nat)) + sum_to (S n + 1 - S n) (fun k => f (S n) (S n + k)%nat)).
  rewrite (sum_to_ext (S n) (fun i => sum_to (S n + 1 - i) (fun k => f i (i + k)%nat)) (fun i => sum_to (n + 1 - i) (fun k => f i (i + k)%nat) + f i (S n))).
  - rewrite sum_to_plus. replace (S n + 1 - S n)%nat with 1%nat by lia.
    change (sum_to (S (S n)) (fun i => f i (S n))) with (sum_to (S n) (fun i => f i (S n)) + f (S n) (S n)). change (sum_to 1 (fun k => f (S n) (S n + k)%nat)) with (0 + f (S n) (S n + 0)%nat). rewrite Nat.add_0_r. ring.
  - intros i Hi. replace (S n + 1 - i)%nat with (S (n + 1 - i)) by lia. change (sum_to (S (n + 1 - i)) (fun k => f i (i + k)%nat)) with (sum_to (n + 1 - i) (fun k => f i (i + k)%nat) + f i (i + (n + 1 - i))%nat). replace (i + (n + 1 - i))%nat with (S n) by lia. reflexivity.
Qed.
(** The cone dilated by t *)
Definition dilate (t : Z) (c : econe) : econe := mkE (e_coef c) (e_rays c) (map (fun s => (s + t * e_vertex c)%Z) (e_sps c)) (e_vertex c).
Lemma inj_tpow t e i : inject_Z e ^ Z.of_nat i * inject_Z t ^ Z.of_nat i == inject_Z (t * e) ^ Z.of_nat i.
Proof. induction i as [|i IH]; [cbn; reflexivity|]. rewrite !Qpow_S, <- IH, inject_Z_mult. ring. Qed.
Lemma consume_ok n g c coeffs : generic g c -> length (e_rays c) = n -> length coeffs = S n ->
  exists l, ehrhart_consume n g c coeffs = Ok (Some l) /\ length l = S n /\ forall t, poly_at l (inject_Z t) == poly_at coeffs (inject_Z t) + value g (dilate t c).
Proof.
  intros G Ln Lc. unfold ehrhart_consume. destruct (weights_ok g (e_rays c) G) as (w & E & Lw & Nw). rewrite E, Lw, Ln. destruct (S n <=? n)%nat eqn:B; [apply Nat.leb_le in B; lia|]. eexists. split; [reflexivity|]. split; [rewrite ehrhart_len; auto|]. intros t.
  rewrite !poly_at_sum, ehrhart_len, Lc. rewrite (sum_to_ext (S n) _ (fun j => nth j coeffs 0 * inject_Z t ^ Z.of_nat j + inject_Z (e_coef c) * (inject_Z (t * e_vertex c) ^ Z.of_nat j * ehr_x n w (sums_of_powers n (e_sps c)) j))).
  2:{ intros i Hi. rewrite ehrhart_nth by lia. cbn [Nat.add]. change (inject_Z 1) with 1. rewrite <- inj_tpow. ring. }
  rewrite sum_to_plus, sum_to_scale. apply Qplus_comp; [reflexivity|]. unfold value, dilate. cbn [e_coef e_rays e_sps]. apply Qmult_comp; [reflexivity|].
  set (y := inject_Z (t * e_vertex c)). set (rs := map (zdot g) (e_rays c)) in *. rewrite Ln in *. destruct (sums_ok n (e_sps c)) as [Ls Ns].
  rewrite (sum_to_ext (S n) _ (fun i => sum_to (n + 1 - i) (fun k => (fun i l => y ^ Z.of_nat i * (inject_Z (binom l i) * nth l w 0 * inject_Z (nth (l - i) (sums_of_powers n (e_sps c)) 0%Z))) i (i + k)%nat))).
  2:{ intros i Hi. unfold ehr_x. rewrite <- sum_to_scale. apply sum_to_ext. intros k Hk. cbv beta. replace (i + k - i)%nat with k by lia. reflexivity. }
  rewrite (triangle (fun i l => y ^ Z.of_nat i * (inject_Z (binom l i) * nth l w 0 * inject_Z (nth (l - i) (sums_of_powers n (e_sps c)) 0%Z))) n). unfold resF, scal. rewrite (conv_comm _ _ n), conv_sum_to, <- sum_to_scale. apply sum_to_ext. intros l Hl.
  rewrite exp_sum_shift. fold y. rewrite conv_sum_to.
  rewrite (sum_to_ext (S l) _ (fun i => (todd_ser rs (n - l)%nat / inject_Z (zprodl rs)) * (sexp y i * exp_sum (e_sps c) (l - i)%nat))).
  - rewrite sum_to_scale. field. now apply inj_zprod_nz.
  - intros i Hi. cbv beta. rewrite binom_qfact by lia. rewrite Nw, Ns by lia. unfold sexp. field. repeat split; try apply qfact_nz. now apply inj_zprod_nz.
Qed.
Lemma consume_none n g c coeffs : ~ generic g c -> ehrhart_consume n g c coeffs = Ok None.
Proof. intros G. unfold ehrhart_consume. rewrite (proj2 (weights_thrown g (e_rays c))); [reflexivity|]. unfold generic in G. destruct (Z.eq_dec (zprodl (map (zdot g) (e_rays c))) 0); tauto. Qed.
Lemma ehrhart_cones_ok n g cs : Forall (fun c => generic g c /\ length (e_rays c) = n) cs -> forall coeffs, length coeffs = S n ->
  exists l, ehrhart_cones n g cs coeffs = Ok (Some l) /\ length l = S n /\ forall t, poly_at l (inject_Z t) == poly_at coeffs (inject_Z t) + qsum (fun c => value g (dilate t c)) cs.
Proof.
  induction cs as [|c cs IH]; intros F coeffs L; cbn [ehrhart_cones qsum]; [exists coeffs; split; auto; split; auto; intros; ring|]. destruct (Forall_inv F) as [G Ln]. destruct (consume_ok n g c coeffs G Ln L) as (l & E & Ll & V). rewrite E. cbn [bind]. destruct (IH (Forall_inv_tail F) l Ll) as (l' & E' & Ll' & V'). exists l'. split; auto. split; auto. intros t. rewrite V', V. ring.
Qed.
Lemma ehrhart_cones_none n g cs : Forall (fun c => length (e_rays c) = n) cs -> ~ Forall (generic g) cs -> forall coeffs, length coeffs = S n -> ehrhart_cones n g cs coeffs = Ok None.
Proof.
  induction cs as [|c cs IH]; intros L NF coeffs Lc; [exfalso; apply NF; constructor|]. cbn [ehrhart_cones]. destruct (generic_dec g c) as [G|G].
  - destruct (consume_ok n g c coeffs G (Forall_inv L) Lc) as (l & E & Ll & _). rewrite E. cbn [bind]. apply IH; [exact (Forall_inv_tail L)|intros F; apply NF; now constructor|exact Ll].
  - rewrite consume_none by auto. reflexivity.
Qed.
Lemma poly_zero k t : poly_at (repeat 0 k) t == 0.
Proof. induction k as [|k IH]; [reflexivity|]. cbn [repeat poly_at]. rewrite IH. ring. Qed.
Lemma all_generic_dec g cs : {Forall (generic g) cs} + {~ Forall (generic g) cs}.
Proof. induction cs as [|c cs [I|I]]; [left; constructor| |right; intros F; apply I; exact (Forall_inv_tail F)]. destruct (generic_dec g c) as [G|G]; [left; now constructor|right; intros F; apply G; exact (Forall_inv F)]. Qed.
Lemma generic_prod g (cs : list econe) : Forall (generic g) cs <-> zprodl (map (zdot g) (flat_map e_rays cs)) <> 0%Z.
Proof.
  induction cs as [|c cs IH]; cbn [flat_map map zprodl]; [split; [lia|constructor]|]. rewrite map_app, zprodl_app, Z.mul_eq_0. split.
  - intros F [E|E]; [exact (Forall_inv F E)|apply IH in E; auto; exact (Forall_inv_tail F)].
  - intros H. constructor; [intros E; apply H; auto|apply IH; intros E; apply H; auto].
Qed.
Lemma map_nth_Z t v k : nth k (map (Z.mul t) v) 0%Z = (t * nth k v 0)%Z.
Proof. rewrite <- (Z.mul_0_r t) at 1. apply map_nth. Qed.
(** Deciding equality of generating polynomials. *)
Lemma gcoeff_0 p v : ~ In v (map snd p) -> gcoeff p v = 0%Z.
Proof. induction p as [|a p IH]; intros H; cbn [gcoeff map] in *; [reflexivity|]. destruct (list_eq_dec Z.eq_dec (snd a) v) as [E|E]; [exfalso; apply H; now left|]. apply IH. intros K. apply H. now right. Qed.
Definition gequal_b (p q : gpoly) : bool := forallb (fun v => Z.eqb (gcoeff p v) (gcoeff q v)) (map snd p ++ map snd q).
Lemma gequal_b_ok p q : gequal_b p q = true -> gequal p q.
Proof.
  intros H v. unfold gequal_b in H. rewrite forallb_forall in H. destruct (in_dec (list_eq_dec Z.eq_dec) v (map snd p ++ map snd q)) as [I|I].
  - apply Z.eqb_eq. now apply H.
  - rewrite !gcoeff_0; auto; intros K; apply I; apply in_or_app; auto.
Qed.
Lemma qred_int z : Qred (z # 1) = (z # 1).
Proof.
  unfold Qred. pose proof (Z.ggcd_gcd z 1) as G. pose proof (Z.ggcd_correct_divisors z 1) as D. destruct (Z.ggcd z 1) as [g [a b]]. cbn [fst] in G. rewrite Z.gcd_1_r in G. subst g. destruct D as [D1 D2]. cbn [fst snd]. rewrite Z.mul_1_l in D1, D2. subst. reflexivity.
Qed.
