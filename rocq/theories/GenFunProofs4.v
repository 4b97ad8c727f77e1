(** Proofs about GenFun: values of generating functions, and expansions as series. *)
From Coq Require Import QArith Qpower Qfield Lqa.
From Verif Require Import Common ZMat RatVecProofs RatVec Piped Irrational PipedSpec PipedProofs3 ConeSpec IntegMath Series DecompProofs Exponential ExpSpec ExpProofs3 CountSpec BrionLinear BrionProofs BrionProofs2 BrionProofs3 GenFunSpec GenFunProofs2 GenFunProofs3.
Open Scope Z_scope.

Notation gcone := (Z * list (list Z) * list (list Z))%type.
Lemma defined_tail n x : defined_at (S n) x -> defined_at n (fun k => x (S k)).
Proof. intros H k Hk. apply H. lia. Qed.
Lemma monomial_vadd n : forall x u v, defined_at n x -> length u = n -> length v = n -> (monomial x (vadd u v) == monomial x u * monomial x v)%Q.
Proof.
  induction n as [|n IH]; intros x [|a u] [|b v] D Lu Lv; cbn [length] in *; try lia; cbn [vadd monomial]; [ring|].
  rewrite (IH _ u v (defined_tail n x D)) by lia. rewrite Qpower_plus by (apply D; lia). ring.
Qed.
Lemma monomial_zero n : forall x, (monomial x (repeat 0%Z n) == 1)%Q.
Proof. induction n as [|n IH]; intros x; cbn [repeat monomial]; [reflexivity|]. rewrite IH. cbn [Qpower]. ring. Qed.
Lemma monomial_nz v : forall n x, defined_at n x -> length v = n -> ~ (monomial x v == 0)%Q.
Proof.
  induction v as [|a v IH]; intros n x D L; cbn [monomial]; [discriminate|]. cbn [length] in L. destruct n as [|n]; [lia|].
  intros E. apply Qmult_integral in E as [E|E]; [|exact (IH n _ (defined_tail n x D) ltac:(lia) E)]. revert E. apply Qpower_not_0, D. lia.
Qed.
Definition geval (x : nat -> Q) (p : gpoly) : Q := qsum (fun a => inject_Z (fst a) * monomial x (snd a))%Q p.
Lemma geval_equal x p q : gequal p q -> (geval x p == geval x q)%Q.
Proof.
  intros H. unfold geval. set (K := nodup (list_eq_dec Z.eq_dec) (map snd p ++ map snd q)). assert (ND : NoDup K) by apply NoDup_nodup.
  rewrite (lin_coeff (monomial x) K ND p), (lin_coeff (monomial x) K ND q).
  - apply qsum_ext. intros v _. now rewrite H.
  - intros v Hv. apply nodup_In, in_or_app. auto.
  - intros v Hv. apply nodup_In, in_or_app. auto.
Qed.
Lemma geval_app x p q : (geval x (p ++ q) == geval x p + geval x q)%Q.
Proof. apply qsum_app. Qed.
Lemma geval_mul n x p q : defined_at n x -> wfp n p -> wfp n q -> (geval x (gmul p q) == geval x p * geval x q)%Q.
Proof.
  intros D Wp Wq. induction Wp as [|a p Ha Wp IH]; cbn [gmul flat_map]; [unfold geval at 1 2; cbn [qsum]; ring|].
  fold (gmul p q). rewrite geval_app, IH. unfold geval at 4. cbn [qsum]. fold (geval x p). rewrite Qmult_plus_distr_l. apply Qplus_comp; [|reflexivity].
  clear IH Wp p. induction Wq as [|b q Hb Wq IH]; cbn [map]; [unfold geval; cbn [qsum]; ring|]. unfold geval in *. cbn [qsum fst snd]. rewrite IH, (monomial_vadd n) by auto. rewrite inject_Z_mult. ring.
Qed.
Lemma geval_scale x c p : (geval x (gscale c p) == inject_Z c * geval x p)%Q.
Proof. induction p as [|a p IH]; [unfold geval; cbn; ring|]. unfold geval, gscale in *. cbn [map qsum fst snd]. rewrite IH, inject_Z_mult. ring. Qed.
Lemma geval_points x ps : (geval x (gpoints ps) == point_sum x ps)%Q.
Proof.
  induction ps as [|p ps IH]; [reflexivity|]. change (point_sum x (p :: ps)) with (monomial x p + point_sum x ps)%Q. rewrite <- IH. unfold geval, gpoints. cbn [map qsum fst snd]. change (inject_Z 1) with 1%Q. ring.
Qed.
Lemma geval_denom n x rays : defined_at n x -> Forall (fun r => length r = n) rays -> (geval x (gdenom n rays) == ray_product x rays)%Q.
Proof.
  intros D W. induction W as [|r rays Hr W IH].
  - unfold geval. cbn [gdenom fold_right gone qsum fst snd ray_product]. rewrite monomial_zero. change (inject_Z 1) with 1%Q. ring.
  - cbn [gdenom fold_right]. fold (gdenom n rays). rewrite (geval_mul n) by (first [exact D|now apply gdenom_wf|repeat constructor; cbn [snd]; [apply repeat_length|exact Hr]]).
    rewrite IH. change (ray_product x (r :: rays)) with ((1 - monomial x r) * ray_product x rays)%Q. apply Qmult_comp; [|reflexivity].
    unfold geval. cbn [qsum fst snd]. rewrite monomial_zero. change (inject_Z 1) with 1%Q. change (inject_Z (-1)) with (-(1))%Q. ring.
Qed.
Lemma geval_rational n x cs : Forall (gc_ok n) cs -> in_domain n cs x ->
  ~ (geval x (snd (grational n cs)) == 0)%Q /\ (geval x (fst (grational n cs)) == geval x (snd (grational n cs)) * rational_value x cs)%Q.
Proof.
  intros G [D R]. revert R. induction G as [|[[k rays] pts] cs (_ & WR & WP) G IH]; intros R.
  - unfold geval. cbn [grational fold_right fst snd gone qsum rational_value]. rewrite monomial_zero. change (inject_Z 1) with 1%Q. split; [intros E; discriminate|ring].
  - cbn [fst snd] in WR, WP. destruct (IH (fun c r Hc => R c r (or_intror Hc))) as [N E]. destruct (grational_wf n cs G) as [W1 W2].
    rewrite grational_cons. cbn [fst snd]. assert (RN : ~ (ray_product x rays == 0)%Q) by (apply ray_product_nz; intros r Hr; exact (R _ r (or_introl eq_refl) Hr)).
    pose proof (gdenom_wf n rays WR) as WG. pose proof (gscale_wf n k _ (gpoints_wf n pts WP)) as WS.
    split.
    + rewrite (geval_mul n), geval_denom by auto. intros Z0. apply Qmult_integral in Z0 as [Z0|Z0]; auto.
    + rewrite geval_app, !(geval_mul n), geval_denom, geval_scale, geval_points, E by auto.
      change ((k, rays, pts) :: cs) with ([(k, rays, pts)] ++ cs). rewrite rational_app, rational_one. cbn [cone_value]. field. exact RN.
Qed.
Theorem generates_value n x cs points : Forall (gc_ok n) cs -> Forall (fun p => length p = n) points -> generates n cs points -> in_domain n cs x -> (rational_value x cs == point_sum x points)%Q.
Proof.
  intros G W H D. destruct (geval_rational n x cs G D) as [N E]. pose proof (geval_equal x _ _ H) as Q0. rewrite (geval_mul n) in Q0; [|apply D|now apply gpoints_wf|apply (grational_wf n cs G)]. rewrite geval_points, E in Q0.
  apply (Qmult_inj_l _ _ (geval x (snd (grational n cs))) N). rewrite Q0. ring.
Qed.

(** ** Expansions: functions bounded below in the directions of T *)
Definition low (n : nat) (T : list (list Z)) (F : lfun) : Prop := exists M, forall x, length x = n -> F x <> 0 -> forall c, In c T -> - M <= zdot c x.
Definition separating (n : nat) (T : list (list Z)) : Prop := forall r, nz n r -> exists c, In c T /\ length c = n /\ zdot c r <> 0.
Lemma dot_bound (T : list (list Z)) r : exists B, 0 <= B /\ forall c, In c T -> Z.abs (zdot c r) <= B.
Proof.
  induction T as [|c T (B & B0 & H)]; [exists 0; split; [lia|intros c []]|]. exists (B + Z.abs (zdot c r)). split; [lia|]. intros d [<-|Hd]; [lia|]. specialize (H d Hd). lia.
Qed.
Lemma zdot_vsub c x r : length x = length r -> zdot c (vsub x r) = zdot c x - zdot c r.
Proof. intros L. unfold zdot. rewrite (ZMat.zsum_ext _ _ (fun k => nth k c 0 * nth k x 0 + (-1) * (nth k c 0 * nth k r 0))) by (intros k _; rewrite vsub_nth by exact L; ring). rewrite ZMat.zsum_add, ZMat.zsum_scal. ring. Qed.
Lemma low_diff n T r F : length r = n -> low n T F -> low n T (diff r F).
Proof.
  intros Lr (M & H). destruct (dot_bound T r) as (B & B0 & HB). exists (M + B). intros x Lx N c Hc. unfold diff in N. specialize (HB c Hc).
  destruct (Z.eq_dec (F x) 0) as [E|E].
  - assert (E2 : F (vsub x r) <> 0) by lia. specialize (H (vsub x r) (vsub_len n x r Lx Lr) E2 c Hc). rewrite zdot_vsub in H by congruence. lia.
  - specialize (H x Lx E c Hc). lia.
Qed.
Lemma low_inj n T r F : separating n T -> nz n r -> low n T F -> eqn n (diff r F) (fun _ => 0) -> eqn n F (fun _ => 0).
Proof.
  intros SP NR (M & H) E x Lx. pose proof (proj1 NR) as Lr. destruct (SP r NR) as (c & Hc & Lc & Nc).
  destruct (Z.eq_dec (F x) 0) as [|N]; [assumption|exfalso].
  assert (K : forall k y, length y = n -> F y <> 0 -> exists z z', length z = n /\ F z <> 0 /\ zdot c z = zdot c y - Z.of_nat k * zdot c r /\ length z' = n /\ F z' <> 0 /\ zdot c z' = zdot c y + Z.of_nat k * zdot c r).
  { induction k as [|k IH]; intros y Ly Ny; [exists y, y; repeat split; auto; lia|]. destruct (IH y Ly Ny) as (z & z' & L1 & N1 & D1 & L2 & N2 & D2).
    exists (vsub z r), (vsub z' (map Z.opp r)). assert (LO : length (map Z.opp r) = n) by now rewrite map_length.
    assert (EO : zdot c (map Z.opp r) = - zdot c r). { unfold zdot. rewrite (ZMat.zsum_ext _ _ (fun j => (-1) * (nth j c 0 * nth j r 0))) by (intros j Hj; rewrite (nth_map0 _ _ _ _ 0) by lia; ring). rewrite ZMat.zsum_scal. ring. }
    split; [now apply vsub_len|]. split; [pose proof (E z L1) as EZ; unfold diff in EZ; lia|]. split; [rewrite zdot_vsub by congruence; rewrite D1; lia|].
    split; [now apply vsub_len|]. split; [|rewrite zdot_vsub by congruence; rewrite D2, EO; lia].
    pose proof (E (vsub z' (map Z.opp r)) (vsub_len n _ _ L2 LO)) as EZ. unfold diff in EZ.
    assert (EV : vsub (vsub z' (map Z.opp r)) r = z').
    { apply nth_ext with (d := 0) (d' := 0); [rewrite (vsub_len n) by (try apply vsub_len; auto); congruence|]. intros j Hj. rewrite !vsub_nth by (rewrite ?(vsub_len n) by auto; congruence). destruct (Nat.lt_ge_cases j n) as [Lj|Lj]; [rewrite (nth_map0 _ _ _ _ 0) by lia; lia|]. rewrite !nth_overflow by lia. lia. }
    rewrite EV in EZ. lia. }
  destruct (K (Z.to_nat (1 + Z.abs M + Z.abs (zdot c x))) x Lx N) as (z & z' & L1 & N1 & D1 & L2 & N2 & D2). rewrite Z2Nat.id in D1, D2 by lia.
  pose proof (H z L1 N1 c Hc) as H1. pose proof (H z' L2 N2 c Hc) as H2. rewrite D1 in H1. rewrite D2 in H2. nia.
Qed.
Lemma low_diffs n T rs F : lens n rs -> low n T F -> low n T (diffs rs F).
Proof. induction rs as [|r rs IH]; intros L H; [exact H|]. cbn [diffs fold_right]. apply low_diff; [apply L; now left|]. apply IH; [intros s Hs; apply L; now right|exact H]. Qed.
Lemma low_negl n T F : separating n T -> negl n F -> low n T F -> eqn n F (fun _ => 0).
Proof.
  intros SP (rs & NR & E) LF. induction NR as [|r rs Hr NR IH]; [exact E|]. apply IH. apply (low_inj n T r); [exact SP|exact Hr|apply low_diffs; [now apply nz_lens|exact LF]|exact E].
Qed.
Lemma low_finite n T F : finite_support n F -> low n T F.
Proof.
  intros (K & H). assert (B : exists B, 0 <= B /\ forall x, In x K -> forall c, In c T -> Z.abs (zdot c x) <= B).
  { clear H. induction K as [|x K (B & B0 & HB)]; [exists 0; split; [lia|intros x []]|]. destruct (dot_bound T x) as (B' & B'0 & HB'). exists (B + B'). split; [lia|]. intros y [<-|Hy] c Hc; [specialize (HB' c Hc)|specialize (HB y Hy c Hc)]; lia. }
  destruct B as (B & B0 & HB). exists B. intros x Lx N c Hc. specialize (HB x (H x Lx N) c Hc). lia.
Qed.
Lemma low_sub n T F G : low n T F -> low n T G -> low n T (fun x => F x - G x).
Proof.
  intros (M & H) (M' & H'). exists (Z.abs M + Z.abs M'). intros x Lx N c Hc. destruct (Z.eq_dec (F x) 0) as [E|E]; [specialize (H' x Lx ltac:(lia) c Hc)|specialize (H x Lx E c Hc)]; lia.
Qed.
Lemma low_ext n T F G : eqn n F G -> low n T F -> low n T G.
Proof. intros E (M & H). exists M. intros x Lx N. apply H; [exact Lx|]. now rewrite (E x Lx). Qed.
Lemma times_act p F x : times_series p F x = act p F x.
Proof. unfold act. induction p as [|a p IH]; [reflexivity|]. cbn [map]. rewrite lsum_cons, <- IH. reflexivity. Qed.
Theorem expands_from_negl n T cs F : separating n T -> low n T F -> Forall (matches n) cs -> negl n (fun x => F x - total cs x) -> expands n (map fst cs) F.
Proof.
  intros SP LF M N v Lv. pose proof (matches_ok n cs M) as G.
  assert (LA : lens n (all_rays (map fst cs))) by (intros r Hr; pose proof (all_rays_len n _ G) as A; rewrite Forall_forall in A; apply A, Hr).
  pose proof (num_coeff n cs M) as E2. pose proof (diffs_negl n _ _ LA N) as N2. rewrite times_act.
  assert (E3 : eqn n (diffs (all_rays (map fst cs)) (fun x => F x - total cs x)) (fun x => diffs (all_rays (map fst cs)) F x - gcoeff (fst (grational n (map fst cs))) x)).
  { intros x Hx. rewrite E2 by exact Hx. rewrite (diffs_ext n _ _ (fun y => F y + (-1) * total cs y) LA) by (first [exact Hx|intros y _; ring]). rewrite diffs_add, diffs_scale. ring. }
  pose proof (low_negl n T _ SP (negl_ext n _ _ E3 N2) (low_sub n T _ _ (low_diffs n T _ _ LA LF) (low_finite n T _ (gcoeff_finite n _))) v Lv) as Z0. cbv beta in Z0.
  rewrite (act_den n (map fst cs) F G v Lv). lia.
Qed.
