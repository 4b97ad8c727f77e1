(** Lawrence's sum over the vertices of a simplex is the complete symmetric polynomial. *)
From Coq Require Import QArith Qfield Permutation.
From Verif Require Import Common Rational IntegSpec IntegMath IntegProofs IntegProofs2 IntegProofs3 IntegProofs4 IntegProofs5 DecompProofs DecompProofs4 InterpProofs2.
From Verif Require Import ZMat Det Perturb PerturbSpec PerturbProofs2 PerturbProofs4.
Open Scope Q_scope.

(** Series whose j-th coefficient is a polynomial of degree <= j in b, top coefficient g j. *)
Definition psum (c : nat -> Q) (b : Z) (j : nat) : Q := qsum (fun s => c s * inject_Z (b ^ Z.of_nat s)) (seq 0 (S j)).
Definition polytop (F : Z -> series) (g : series) : Prop :=
  forall j, exists c, (forall b, F b j == psum c b j) /\ c j == g j.
Lemma psum_shift c b j : inject_Z b * psum c b j == psum (fun s => match s with O => 0 | S k => c k end) b (S j).
Proof.
  unfold psum. rewrite (qsum_seq_head _ (S j)). rewrite <- qsum_scale. rewrite Qmult_0_l, Qplus_0_l. apply qsum_ext. intros s _. cbn beta iota. rewrite (injpow b s). ring.
Qed.
Lemma psum_pad c b j : psum c b j == psum (fun s => if (s <=? j)%nat then c s else 0) b (S j).
Proof.
  unfold psum. rewrite (qsum_seq_S (fun s => (if (s <=? j)%nat then c s else 0) * _)). destruct (Nat.leb_spec (S j) j); [lia|]. rewrite Qmult_0_l, Qplus_0_r. apply qsum_ext. intros s Hs. apply in_seq in Hs. destruct (Nat.leb_spec s j); [reflexivity|lia].
Qed.
Lemma psum_lin a1 c1 a2 c2 a3 c3 k b j : psum (fun s => (a1 * c1 s + a2 * c2 s + a3 * c3 s) / k) b j == (a1 * psum c1 b j + a2 * psum c2 b j + a3 * psum c3 b j) / k.
Proof.
  unfold psum. unfold Qdiv. rewrite <- !qsum_scale. rewrite <- !qsum_plus. rewrite Qmult_comm, <- qsum_scale. apply qsum_ext. intros s _. ring.
Qed.
Lemma polytop_div F g c gam : (c <> 0)%Z -> polytop F g -> polytop (fun b => over_factor (c, (b - gam)%Z) (F b)) (divlin (inject_Z c) g).
Proof.
  intros Hc HF j. pose proof (injz_nz c Hc) as HQ. induction j as [|j (d & D1 & D2)].
  - destruct (HF O) as (d & D1 & D2). exists (fun s => d s / inject_Z c). split; [|cbn [divlin]; rewrite D2; reflexivity].
    intros b. cbn [over_factor fst]. rewrite D1. unfold psum. cbn [seq qsum]. field. auto.
  - destruct (HF (S j)) as (f & F1 & F2).
    exists (fun s => (1 * f s + (-1) * (match s with O => 0 | S k => d k end) + inject_Z gam * (if (s <=? j)%nat then d s else 0)) / inject_Z c). split.
    + intros b. rewrite psum_lin, <- psum_shift, <- psum_pad. cbn [over_factor fst snd]. rewrite F1. rewrite injZ_sub.
      cbn [over_factor fst snd] in D1. rewrite (D1 b). field. auto.
    + cbv beta. destruct (Nat.leb_spec (S j) j); [lia|]. cbn [divlin]. rewrite D2, F2. field. auto.
Qed.
Lemma polytop_divs (P : list (Z * Z)) a F g : Forall (fun q => fst q <> a) P -> polytop F g ->
  polytop (fun b => over_factors (map (fun q => (a - fst q, b - snd q)%Z) P) (F b)) (divs (map (fun b => (a - b)%Z) (map fst P)) g).
Proof.
  induction 1 as [|q P Hq HP IH]; intros HF; cbn [map over_factors divs fold_right]; auto.
  apply (polytop_div (fun b => over_factors (map (fun q => (a - fst q, b - snd q)%Z) P) (F b))); [lia|]. apply IH, HF.
Qed.
Lemma polytop_binomial a N : polytop (fun b => binomial_series a b N) (powlin a N).
Proof.
  intros j. exists (fun s => if (s =? j)%nat then inject_Z (binom N j * a ^ Z.of_nat (N - j)) else 0). split.
  - intros b. unfold psum. rewrite (qsum_single _ _ j).
    + cbv beta. rewrite Nat.eqb_refl. unfold binomial_series. now rewrite inject_Z_mult.
    + apply seq_NoDup.
    + apply in_seq. lia.
    + intros s _ Hs. destruct (Nat.eqb_spec s j); [contradiction|]. ring.
  - cbv beta. rewrite Nat.eqb_refl. symmetry. apply powlin_closed.
Qed.
(** Lagrange *)
Lemma lagrange bs s : NoDup bs -> (s < length bs)%nat ->
  qsum (fun v => inject_Z (v ^ Z.of_nat s) / inject_Z (product (other_diffs v bs))) bs == if (S s =? length bs)%nat then 1 else 0.
Proof.
  intros ND L. destruct bs as [|a T]; [cbn in L; lia|]. pose proof (residues_are_hsym T a s) as R. cbn [length] in *.
  transitivity (D (a :: T) s).
  - unfold D. rewrite (nodup_fixed_point Z.eq_dec ND). apply qsum_ext. intros v Hv. unfold res.
    rewrite (proj1 (NoDup_count_occ' Z.eq_dec (a :: T)) ND v Hv). cbn [Nat.sub]. rewrite divs_at_0 by apply others_nz.
    rewrite powlin_closed, binom_0, Z.mul_1_l, Nat.sub_0_r. reflexivity.
  - rewrite R. destruct (Nat.ltb_spec s (length T)), (Nat.eqb_spec (S s) (S (length T))); try lia; try reflexivity.
    replace (s - length T)%nat with 0%nat by lia. rewrite hsym_0. reflexivity.
Qed.
Lemma qsum_swap {A B} (f : A -> B -> Q) l r : qsum (fun a => qsum (f a) r) l == qsum (fun b => qsum (fun a => f a b) l) r.
Proof.
  induction l as [|a l IH]; cbn [qsum]; [symmetry; apply qsum_zero; reflexivity|]. rewrite IH, <- qsum_plus. reflexivity.
Qed.
Lemma polytop_lagrange F g bs : polytop F g -> NoDup bs -> bs <> [] ->
  qsum (fun v => F v (length bs - 1)%nat / inject_Z (product (other_diffs v bs))) bs == g (length bs - 1)%nat.
Proof.
  intros HF ND NE. destruct (HF (length bs - 1)%nat) as (c & C1 & C2).
  assert (L : (0 < length bs)%nat) by (destruct bs; [congruence|cbn; lia]).
  rewrite (qsum_ext _ (fun v => qsum (fun s => c s * (inject_Z (v ^ Z.of_nat s) / inject_Z (product (other_diffs v bs)))) (seq 0 (length bs)))).
  - rewrite qsum_swap. rewrite (qsum_ext _ (fun s => c s * (if (S s =? length bs)%nat then 1 else 0))).
    + rewrite (qsum_single _ _ (length bs - 1)%nat).
      * destruct (Nat.eqb_spec (S (length bs - 1)) (length bs)); [|lia]. rewrite C2. ring.
      * apply seq_NoDup.
      * apply in_seq. lia.
      * intros s Hs Ns. destruct (Nat.eqb_spec (S s) (length bs)); [lia|]. ring.
    + intros s Hs. apply in_seq in Hs. rewrite qsum_scale, lagrange by (auto; lia). reflexivity.
  - intros v _. rewrite C1. unfold psum. replace (S (length bs - 1)) with (length bs) by lia. unfold Qdiv. rewrite Qmult_comm, <- qsum_scale. apply qsum_ext. intros s _. ring.
Qed.
(** grouping a sum *)
Lemma qsum_filter {A} (p : A -> bool) (f : A -> Q) l : qsum f (filter p l) == qsum (fun a => if p a then f a else 0) l.
Proof. induction l as [|a l IH]; cbn [filter qsum]; [reflexivity|]. destruct (p a); cbn [qsum]; rewrite IH; ring. Qed.
Lemma qsum_group {A} (k : A -> Z) (f : A -> Q) l ks : NoDup ks -> (forall a, In a l -> In (k a) ks) ->
  qsum f l == qsum (fun x => qsum f (filter (fun a => k a =? x)%Z l)) ks.
Proof.
  intros ND H. rewrite (qsum_ext (fun x => qsum f (filter (fun a => k a =? x)%Z l)) (fun x => qsum (fun a => if (k a =? x)%Z then f a else 0) l)) by (intros; apply qsum_filter).
  rewrite (qsum_swap (fun x a => if (k a =? x)%Z then f a else 0)). apply qsum_ext. intros a Ha.
  rewrite (qsum_single _ ks (k a) ND (H a Ha)); [rewrite Z.eqb_refl; reflexivity|]. intros b _ Hb. destruct (Z.eqb_spec (k a) b); [congruence|reflexivity].
Qed.
(** the vertices in turn *)
Definition facet (p : Z * Z) (l : list (Z * Z)) : list (Z * Z) := map (fun q => (fst p - fst q, snd p - snd q)%Z) l.
Definition betas (a : Z) (P : list (Z * Z)) : list Z := map snd (filter (fun q => fst q =? a)%Z P).
Definition local (N : nat) (P : list (Z * Z)) (p : Z * Z) : Q :=
  over_factors (facet p (filter (fun q => negb (fst q =? fst p)%Z) P)) (binomial_series (fst p) (snd p) N) (length (betas (fst p) P) - 1)%nat /
  inject_Z (product (other_diffs (snd p) (betas (fst p) P))).
Lemma regular_facet p l : regular (facet p l) = facet p (filter (fun q => negb (fst q =? fst p)%Z) l).
Proof.
  unfold regular, facet. induction l as [|q l IH]; cbn [map filter fst]; auto. rewrite IH. destruct (Z.eqb_spec (fst p - fst q) 0), (Z.eqb_spec (fst q) (fst p)); try lia; reflexivity.
Qed.
Lemma vanishing_facet p l : vanishing (facet p l) = map (fun x => snd p - x)%Z (betas (fst p) l).
Proof.
  unfold vanishing, facet, betas. induction l as [|q l IH]; cbn [map filter fst]; auto. destruct (Z.eqb_spec (fst p - fst q) 0), (Z.eqb_spec (fst q) (fst p)); try lia; cbn [map snd]; rewrite IH; reflexivity.
Qed.
Lemma filter_all {A} (f : A -> bool) l : (forall a, In a l -> f a = true) -> filter f l = l.
Proof. induction l as [|a l IH]; cbn; intros H; auto. rewrite (H a), IH by auto. reflexivity. Qed.
Lemma local_ok N l1 p l2 : (forall q, In q (l1 ++ l2) -> fst q = fst p -> snd q <> snd p) ->
  constant_coefficient (fst p) (snd p) N (facet p (l1 ++ l2)) == local N (l1 ++ p :: l2) p.
Proof.
  intros U. unfold constant_coefficient, local. rewrite regular_facet, vanishing_facet.
  assert (E1 : filter (fun q => negb (fst q =? fst p)%Z) (l1 ++ p :: l2) = filter (fun q => negb (fst q =? fst p)%Z) (l1 ++ l2)).
  { rewrite !filter_app. cbn [filter]. rewrite Z.eqb_refl. reflexivity. }
  assert (E2 : betas (fst p) (l1 ++ p :: l2) = betas (fst p) l1 ++ snd p :: betas (fst p) l2).
  { unfold betas. rewrite filter_app, map_app. cbn [filter]. rewrite Z.eqb_refl. reflexivity. }
  assert (E3 : betas (fst p) (l1 ++ l2) = betas (fst p) l1 ++ betas (fst p) l2) by (unfold betas; now rewrite filter_app, map_app).
  assert (E4 : other_diffs (snd p) (betas (fst p) (l1 ++ p :: l2)) = map (fun x => snd p - x)%Z (betas (fst p) (l1 ++ l2))).
  { unfold other_diffs. f_equal. rewrite E2, E3. rewrite filter_app. cbn [filter]. rewrite Z.eqb_refl. cbn [negb]. rewrite <- filter_app. apply filter_all.
    intros x Hx. rewrite <- E3 in Hx. unfold betas in Hx. apply in_map_iff in Hx as (q & <- & Hq). apply filter_In in Hq as [Hq F]. apply Z.eqb_eq in F. apply negb_true_iff, Z.eqb_neq. auto. }
  rewrite E1, E4, map_length, E2, E3, !app_length. cbn [length]. replace (length (betas (fst p) l1) + S (length (betas (fst p) l2)) - 1)%nat with (length (betas (fst p) l1) + length (betas (fst p) l2))%nat by lia.
  reflexivity.
Qed.
Lemma map_fst_filter (a : Z) (P : list (Z * Z)) : map fst (filter (fun q => negb (fst q =? a)%Z) P) = others a (map fst P).
Proof. unfold others. induction P as [|q P IH]; cbn; auto. destruct (fst q =? a)%Z; cbn; congruence. Qed.
Lemma betas_count a P : length (betas a P) = count_occ Z.eq_dec (map fst P) a.
Proof. unfold betas. rewrite map_length. induction P as [|q P IH]; cbn; auto. destruct (Z.eqb_spec (fst q) a), (Z.eq_dec (fst q) a); try contradiction; cbn; auto. Qed.
Lemma group_residue N P a : NoDup (betas a P) -> In a (map fst P) ->
  qsum (local N P) (filter (fun q => fst q =? a)%Z P) == res a (map fst P) (powlin a N).
Proof.
  intros ND HI.
  assert (NE : betas a P <> []). { unfold betas. apply in_map_iff in HI as (q & <- & Hq). intros E. assert (In (snd q) (map snd (filter (fun q0 => (fst q0 =? fst q)%Z) P))) as K by (apply in_map, filter_In; split; auto; apply Z.eqb_refl). rewrite E in K. exact K. }
  rewrite (qsum_ext _ (fun q => over_factors (map (fun r => (a - fst r, snd q - snd r)%Z) (filter (fun r => negb (fst r =? a)%Z) P)) (binomial_series a (snd q) N) (length (betas a P) - 1)%nat / inject_Z (product (other_diffs (snd q) (betas a P))))).
  - pose proof (polytop_lagrange _ _ (betas a P) (polytop_divs (filter (fun r => negb (fst r =? a)%Z) P) a _ _
      ltac:(apply Forall_forall; intros q Hq; apply filter_In in Hq as [_ Hq]; now apply negb_true_iff, Z.eqb_neq in Hq) (polytop_binomial a N)) ND NE) as L.
    cbv beta in L. unfold betas at 3 in L. rewrite qsum_map in L. rewrite L. rewrite map_fst_filter. unfold res. now rewrite betas_count.
  - intros q Hq. apply filter_In in Hq as [_ Hq]. apply Z.eqb_eq in Hq. unfold local, facet. rewrite Hq. reflexivity.
Qed.
