(** The residue of computeResidueLawrence. *)
From Coq Require Import QArith Qfield Permutation.
From Verif Require Import Common Rational RationalSpec RationalProofs Trie TrieSpec TrieProofs TrieProofs2 Integ IntegSpec IntegMath IntegProofs IntegProofs2 IntegProofs3 IntegProofs4 IntegProofs5.
From Verif Require Import Perturb PerturbSpec PerturbProofs.
Open Scope Q_scope.

Notation div2 := over_factor.
Notation divs2 := over_factors.
Lemma times_ext f F G : F ≡ G -> times_factor f F ≡ times_factor f G.
Proof. unfold seq_eq. intros H [|k]; cbn [times_factor]; [rewrite (H O); reflexivity|]. rewrite (H (S k)), (H k). reflexivity. Qed.
Lemma div2_times f F : (fst f <> 0)%Z -> div2 f (times_factor f F) ≡ F.
Proof. intros H j. pose proof (injz_nz _ H). induction j as [|k IH]; cbn [div2 times_factor]; [field; auto|]. rewrite IH. field; auto. Qed.
Lemma times_div2 f F : (fst f <> 0)%Z -> times_factor f (div2 f F) ≡ F.
Proof. intros H [|k]; pose proof (injz_nz _ H); cbn [div2 times_factor]; field; auto. Qed.
Lemma div2_ext f F G : F ≡ G -> div2 f F ≡ div2 f G.
Proof. unfold seq_eq. intros H j; induction j as [|k IH]; cbn [div2]; [rewrite (H O); reflexivity|]. rewrite (H (S k)), IH; reflexivity. Qed.
Lemma times_comm2 f g F : times_factor f (times_factor g F) ≡ times_factor g (times_factor f F).
Proof. intros [|[|k]]; cbn [times_factor]; ring. Qed.
Lemma times_inj f F G : (fst f <> 0)%Z -> times_factor f F ≡ times_factor f G -> F ≡ G.
Proof. intros H E. eapply seq_trans; [apply seq_sym, (div2_times f F H)|]. eapply seq_trans; [apply div2_ext, E|]. now apply div2_times. Qed.
Lemma divs2_ext l F G : F ≡ G -> divs2 l F ≡ divs2 l G.
Proof. intros H; induction l as [|c l IH]; cbn [divs2 fold_right]; auto. now apply div2_ext. Qed.
Lemma times_factors_ext l F G : F ≡ G -> times_factors l F ≡ times_factors l G.
Proof. intros H; induction l as [|c l IH]; cbn [times_factors fold_right]; auto. now apply times_ext. Qed.
Lemma times_factors_comm f l F : times_factors l (times_factor f F) ≡ times_factor f (times_factors l F).
Proof.
  induction l as [|c l IH]; cbn [times_factors fold_right]; [apply seq_refl|]. eapply seq_trans; [apply times_ext, IH|]. apply times_comm2.
Qed.
Lemma times_divs2 l F : Forall (fun f => fst f <> 0%Z) l -> times_factors l (divs2 l F) ≡ F.
Proof.
  induction 1 as [|c l Hc HL IH]; cbn [times_factors divs2 fold_right]; [apply seq_refl|].
  fold (times_factors l (div2 c (divs2 l F))). eapply seq_trans; [apply seq_sym, times_factors_comm|].
  eapply seq_trans; [apply times_factors_ext, times_div2; auto|]. exact IH.
Qed.
Lemma times_factors_inj l F G : Forall (fun f => fst f <> 0%Z) l -> times_factors l F ≡ times_factors l G -> F ≡ G.
Proof.
  induction 1 as [|c l Hc HL IH]; cbn [times_factors fold_right]; auto. intros H. apply IH. now apply (times_inj c).
Qed.
Lemma times_factors_perm l l' F : Permutation l l' -> times_factors l F ≡ times_factors l' F.
Proof.
  induction 1 as [|x l l' P IH|x y l|l l' l'' P1 IH1 P2 IH2]; cbn [times_factors fold_right].
  - apply seq_refl.
  - now apply times_ext.
  - apply times_comm2.
  - eapply seq_trans; eauto.
Qed.
Lemma divs2_perm l l' F : Permutation l l' -> Forall (fun f => fst f <> 0%Z) l -> divs2 l F ≡ divs2 l' F.
Proof.
  intros P H. assert (H' : Forall (fun f => fst f <> 0%Z) l').
  { rewrite Forall_forall in *. intros c Hc. apply H. now apply (Permutation_in c (Permutation_sym P)). }
  apply (times_factors_inj l); auto. eapply seq_trans; [apply times_divs2; auto|]. apply seq_sym. eapply seq_trans; [apply times_factors_perm, P|]. now apply times_divs2.
Qed.
Lemma divs2_app l1 l2 F : divs2 (l1 ++ l2) F = divs2 l1 (divs2 l2 F).
Proof. unfold divs2. apply fold_right_app. Qed.
Lemma divs2_repeat c n F : divs2 (repeat c n) F = IntegMath.iter n (div2 c) F.
Proof. induction n as [|n IH]; cbn [repeat IntegMath.iter]; [reflexivity|]. rewrite <- IH. reflexivity. Qed.
Lemma div2_scale f F k : (fst f <> 0)%Z -> div2 f (fun j => k * F j) ≡ (fun j => k * div2 f F j).
Proof. intros H j. pose proof (injz_nz _ H). induction j as [|m IH]; cbn [div2]; [field; auto|]. rewrite IH. field; auto. Qed.
Lemma divs2_scale l F k : Forall (fun f => fst f <> 0%Z) l -> divs2 l (fun j => k * F j) ≡ (fun j => k * divs2 l F j).
Proof.
  unfold divs2. induction 1 as [|x l Hx Hl IH]; cbn [fold_right]; [apply seq_refl|]. eapply seq_trans; [apply div2_ext, IH|]. now apply div2_scale.
Qed.
Lemma divs2_at0 l F : Forall (fun f => fst f <> 0%Z) l -> ~ F O == 0 -> ~ divs2 l F O == 0.
Proof.
  induction 1 as [|x l Hx HL IH]; intros HF; [exact HF|]. unfold divs2. cbn [fold_right div2]. fold (divs2 l F). intros E. apply (IH HF).
  assert (divs2 l F O == (divs2 l F O / inject_Z (fst x)) * inject_Z (fst x)) as -> by (field; now apply injz_nz). rewrite E. ring.
Qed.
(** convolution *)
Lemma conv_times f F G : conv F (times_factor f G) ≡ times_factor f (conv F G).
Proof.
  intros [|k]; unfold conv.
  - cbn [qn times_factor Nat.sub]. ring.
  - cbn [times_factor]. change (qn (fun i => F i * G (S k - i)%nat) (S (S k))) with (qn (fun i => F i * G (S k - i)%nat) (S k) + F (S k) * G (S k - S k)%nat).
    change (qn (fun i => F i * times_factor f G (S k - i)%nat) (S (S k))) with (qn (fun i => F i * times_factor f G (S k - i)%nat) (S k) + F (S k) * times_factor f G (S k - S k)%nat).
    rewrite (qn_ext _ (fun i => inject_Z (fst f) * (F i * G (S k - i)%nat) + inject_Z (snd f) * (F i * G (k - i)%nat))).
    + rewrite qn_add, !qn_scale, Nat.sub_diag. cbn [times_factor]. ring.
    + intros i Hi. replace (S k - i)%nat with (S (k - i)) by lia. cbn [times_factor]. ring.
Qed.
Lemma conv_div2 f F G : (fst f <> 0)%Z -> conv F (div2 f G) ≡ div2 f (conv F G).
Proof.
  intros H. apply (times_inj f); auto. eapply seq_trans; [apply seq_sym, conv_times|].
  eapply seq_trans; [apply conv_ext; [apply seq_refl|apply times_div2; auto]|]. apply seq_sym. now apply times_div2.
Qed.
Lemma conv_iter2 c n F : (fst c <> 0)%Z -> conv F (IntegMath.iter n (div2 c) one) ≡ IntegMath.iter n (div2 c) F.
Proof.
  intros H. induction n as [|n IH]; cbn [IntegMath.iter]; [apply conv_one|]. eapply seq_trans; [apply conv_div2; auto|]. now apply div2_ext.
Qed.
(** w -> e w *)
Definition dil (e : Z) (F : series) : series := fun j => inject_Z (e ^ Z.of_nat j) * F j.
Lemma dil_ext e F G : F ≡ G -> dil e F ≡ dil e G.
Proof. intros H j. unfold dil. now rewrite (H j). Qed.
Lemma dil_times c e F : times_factor (c, e) (dil e F) ≡ dil e (mullin (inject_Z c) F).
Proof.
  intros [|k]; unfold dil; cbn [times_factor mullin fst snd]; [cbn; ring|]. rewrite (injpow e k). ring.
Qed.
Lemma dil_div c e F : (c <> 0)%Z -> div2 (c, e) (dil e F) ≡ dil e (divlin (inject_Z c) F).
Proof.
  intros H. apply (times_inj (c, e)); [exact H|]. eapply seq_trans; [apply times_div2; exact H|]. eapply seq_trans; [|apply seq_sym, dil_times].
  apply dil_ext, seq_sym, mul_div. now apply injz_nz.
Qed.
Lemma dil_one e : dil e one ≡ one.
Proof. intros [|k]; unfold dil; cbn [one]; [reflexivity|ring]. Qed.
Lemma iter_dil c e n : (c <> 0)%Z -> IntegMath.iter n (div2 (c, e)) one ≡ dil e (IntegMath.iter n (divlin (inject_Z c)) one).
Proof.
  intros H. induction n as [|n IH]; cbn [IntegMath.iter]; [apply seq_sym, dil_one|]. eapply seq_trans; [apply div2_ext, IH|]. now apply dil_div.
Qed.
Lemma scaled_closed2 c e n K j : (c <> 0)%Z -> (j <= K)%nat ->
  inject_Z (c ^ Z.of_nat (S n + K)) * IntegMath.iter (S n) (div2 (c, e)) one j ==
  inject_Z ((-1) ^ Z.of_nat j * (binom (n + j) j * c ^ Z.of_nat (K - j) * e ^ Z.of_nat j)).
Proof.
  intros H Hj. rewrite (iter_dil c e (S n) H j). unfold dil. rewrite Qmult_assoc, (Qmult_comm (inject_Z (c ^ _))), <- Qmult_assoc, scaled_closed by auto.
  rewrite !inject_Z_mult. ring.
Qed.

(** the loops *)
Lemma numer_series2_ok e p q A : (forall j, (j <= e)%nat -> A j == binomial_series p q e j) -> (Z.of_nat e < 2 ^ 20)%Z ->
  forall n i m, grel 1 m (sp i A) -> (i + n <= S e)%nat ->
  exists m', numer_series2 n (Z.of_nat i) (Z.of_nat e) p q m = Ok m' /\ grel 1 m' (sp (i + n) A).
Proof.
  intros HA He. induction n as [|n IH]; intros i m G Hn; cbn [numer_series2].
  - exists m. rewrite Nat.add_0_r. auto.
  - rewrite power_ZZ_ok by lia. cbn [bind]. rewrite power_ZZ_ok by lia. cbn [bind]. rewrite choose_ok.
    set (r := mkRat (binom e i * p ^ (Z.of_nat e - Z.of_nat i) * q ^ Z.of_nat i) 1).
    destruct (gms_insert_ok 1 m (sp i A) r [Z.of_nat i]) as (m1 & E & G1); auto.
    { apply lowest_int. }
    rewrite E. cbn [bind]. replace (Z.of_nat i + 1)%Z with (Z.of_nat (S i)) by lia.
    destruct (IH (S i) m1) as (m' & E' & G').
    + destruct G1 as [V G1]. split; auto.
      assert (PE : peq (padd (sp i A) [(value r, [Z.of_nat i])]) (sp (S i) A)).
      { rewrite sp_S. apply padd_peq; [apply peq_refl|]. intros x. cbn [coef fst snd]. destruct (same_exps [Z.of_nat i] x); [|reflexivity].
        rewrite (HA i) by lia. unfold r, binomial_series. rewrite Nat2Z.inj_sub by lia. reflexivity. }
      destruct G1 as [(Z0 & O & P)|(Z0 & t & Et & T)]; [left|right].
      * split; auto. split; auto. eapply peq_trans; [apply peq_sym, PE|exact P].
      * split; auto. exists t. split; auto. eapply trie_poly_peq; eauto.
    + lia.
    + exists m'. split; auto. replace (i + S n)%nat with (S i + n)%nat by lia. exact G'.
Qed.
Lemma sign_pow i : ((-1) ^ Z.of_nat i = if (Z.of_nat i mod 2 =? 1)%Z then -1 else 1)%Z.
Proof.
  pose proof (Z.mod_pos_bound (Z.of_nat i) 2 ltac:(lia)). rewrite (Z.div_mod (Z.of_nat i) 2) at 1 by lia.
  rewrite Z.pow_add_r, Z.pow_mul_r by (try apply Z.mul_nonneg_nonneg; try apply Z.div_pos; lia). change ((-1)^2)%Z with 1%Z. rewrite Z.pow_1_l by (apply Z.div_pos; lia).
  destruct (Z.eqb_spec (Z.of_nat i mod 2) 1) as [E|E]; [rewrite E; reflexivity|]. replace (Z.of_nat i mod 2)%Z with 0%Z by lia. reflexivity.
Qed.
Lemma denom_series2_ok c (k : nat) x y K B : (Z.of_nat K < 2 ^ 20)%Z -> c = Z.of_nat (S k) ->
  (forall j, (j <= K)%nat -> B j == inject_Z ((-1) ^ Z.of_nat j * (binom (k + j) j * x ^ Z.of_nat (K - j) * y ^ Z.of_nat j))) ->
  forall n i m, grel 1 m (sp i B) -> (i + n <= S K)%nat ->
  exists m', denom_series2 n (Z.of_nat i) c (Z.of_nat K) x y m = Ok m' /\ grel 1 m' (sp (i + n) B).
Proof.
  intros HK -> HB. induction n as [|n IH]; intros i m G Hn; cbn [denom_series2].
  - exists m. rewrite Nat.add_0_r. auto.
  - rewrite power_ZZ_ok by lia. cbn [bind]. rewrite power_ZZ_ok by lia. cbn [bind]. cbv zeta.
    replace (Z.of_nat (S k) + Z.of_nat i - 1)%Z with (Z.of_nat (k + i)) by lia. rewrite choose_ok.
    set (z := (binom (k + i) i * x ^ (Z.of_nat K - Z.of_nat i) * y ^ Z.of_nat i)%Z).
    set (r := if (Z.of_nat i mod 2 =? 1)%Z then rat_mul_z (mkRat z 1) (-1) else mkRat z 1).
    assert (HR : lowest_terms r /\ value r == inject_Z ((-1) ^ Z.of_nat i * z)).
    { subst r. rewrite sign_pow. destruct (Z.eqb_spec (Z.of_nat i mod 2) 1) as [E|E].
      - unfold rat_mul_z. cbn [num den]. destruct (canonicalize_correct (z * -1) 1 ltac:(lia)) as [H1 H2]. split; auto.
        rewrite H2. rewrite (Z.mul_comm (-1) z). change (inject_Z 1) with 1. field.
      - split; [apply lowest_int|]. rewrite Z.mul_1_l. reflexivity. }
    destruct HR as [HR1 HR2].
    destruct (gms_insert_ok 1 m (sp i B) r [Z.of_nat i]) as (m1 & E & G1); auto.
    rewrite E. cbn [bind]. replace (Z.of_nat i + 1)%Z with (Z.of_nat (S i)) by lia.
    destruct (IH (S i) m1) as (m' & E' & G').
    + destruct G1 as [V G1]. split; auto.
      assert (PE : peq (padd (sp i B) [(value r, [Z.of_nat i])]) (sp (S i) B)).
      { rewrite sp_S. apply padd_peq; [apply peq_refl|]. intros u. cbn [coef fst snd]. destruct (same_exps [Z.of_nat i] u); [|reflexivity].
        rewrite HR2, (HB i) by lia. subst z. rewrite Nat2Z.inj_sub by lia. reflexivity. }
      destruct G1 as [(Z0 & O & P)|(Z0 & t & Et & T)]; [left|right].
      * split; auto. split; auto. eapply peq_trans; [apply peq_sym, PE|exact P].
      * split; auto. exists t. split; auto. eapply trie_poly_peq; eauto.
    + lia.
    + exists m'. split; auto. replace (i + S n)%nat with (S i + n)%nat by lia. exact G'.
Qed.
Lemma expand_regular ds : Forall (fun f => fst f <> 0%Z) (expand ds).
Proof.
  apply Forall_forall. intros f Hf. unfold expand in Hf. apply in_flat_map in Hf as (d & Hd & Hf). destruct (Z.eqb_spec (lp_const d) 0); [destruct Hf|]. apply repeat_spec in Hf. subst f. exact n.
Qed.
Lemma iter_div2_const c n F : (c <> 0)%Z -> IntegMath.iter n (div2 (c, 0%Z)) F ≡ (fun j => F j / inject_Z (c ^ Z.of_nat n)).
Proof.
  intros H. pose proof (injz_nz c H) as HQ. induction n as [|n IH]; cbn [IntegMath.iter]; [intros j; cbn; field|].
  eapply seq_trans; [apply div2_ext, IH|]. intros j. rewrite injpow. pose proof (zpow_nz c n H). destruct j as [|k]; cbn [div2 fst snd]; change (inject_Z 0) with 0; field; auto.
Qed.
Lemma lawrence_loop_ok K : forall ds de t A, Forall (fun d => (lp_pow d <= 0 \/ (lp_const d <> 0 /\ lp_pow d + Z.of_nat K < 2 ^ 20))%Z) ds ->
  trie_poly 1 t (sp (S K) A) -> ~ A O == 0 -> (Z.of_nat K < 2 ^ 20)%Z ->
  exists P t' A', lawrence_loop ds (Z.of_nat K) de (Some t) = Ok ((de * P)%Z, Some t') /\ (P <> 0)%Z /\
    trie_poly 1 t' (sp (S K) A') /\ A' ≡ (fun j => inject_Z P * divs2 (expand ds) A j).
Proof.
  induction ds as [|d ds IH]; intros de t A HL HT HA HK; cbn [lawrence_loop].
  - exists 1%Z, t, A. rewrite Z.mul_1_r. split; auto. split; [lia|]. split; auto. intros j. cbn [expand flat_map divs2 fold_right]. change (inject_Z 1) with 1. ring.
  - pose proof (Forall_inv HL) as HD. pose proof (Forall_inv_tail HL) as HL'. destruct (Z.leb_spec (lp_pow d) 0) as [Np|Pp].
    + destruct (IH de t A HL' HT HA HK) as (P & t' & A' & E1 & E2 & E3 & E4). exists P, t', A'. split; auto. split; auto. split; auto.
      unfold expand. cbn [flat_map]. replace (Z.to_nat (lp_pow d)) with O by lia. cbn [repeat]. destruct (lp_const d =? 0)%Z; exact E4.
    + destruct HD as [HD|[C0 HB]]; [lia|].
      destruct (Z_of_nat_complete (lp_pow d - 1)) as [k Hk]; [lia|].
      assert (EX : expand (d :: ds) = repeat (pair_of d) (S k) ++ expand ds).
      { unfold expand. cbn [flat_map]. destruct (Z.eqb_spec (lp_const d) 0); [congruence|]. replace (Z.to_nat (lp_pow d)) with (S k) by lia. reflexivity. }
      assert (COMM : forall F, divs2 (expand ds) (divs2 (repeat (pair_of d) (S k)) F) ≡ divs2 (expand (d :: ds)) F).
      { intros F. rewrite EX, <- divs2_app. apply divs2_perm; [apply Permutation_app_comm|]. apply Forall_app. split; [apply expand_regular|].
        apply Forall_forall. intros y Hy. apply repeat_spec in Hy. subst y. exact C0. }
      destruct (Z.eqb_spec (lp_eps d) 0) as [E0|E0].
      * rewrite power_ZZ_ok by lia. cbn [bind].
        destruct (IH (de * lp_const d ^ lp_pow d)%Z t A HL' HT HA HK) as (P & t' & A' & E1 & E2 & E3 & E4).
        exists (lp_const d ^ lp_pow d * P)%Z, t', A'. rewrite Z.mul_assoc. split; auto. split; [apply Z.neq_mul_0; split; auto; apply Z.pow_nonzero; lia|]. split; auto.
        eapply seq_trans; [exact E4|]. intros j. rewrite <- (COMM A j).
        assert (CV : divs2 (repeat (pair_of d) (S k)) A ≡ (fun j => / inject_Z (lp_const d ^ lp_pow d) * A j)).
        { rewrite divs2_repeat. unfold pair_of. rewrite E0. eapply seq_trans; [apply iter_div2_const; auto|]. intros i. replace (Z.of_nat (S k)) with (lp_pow d) by lia. field. apply injz_nz, Z.pow_nonzero; lia. }
        rewrite (divs2_ext _ _ _ CV j). rewrite (divs2_scale (expand ds) A (/ inject_Z (lp_const d ^ lp_pow d)) (expand_regular ds) j). rewrite inject_Z_mult. field. apply injz_nz, Z.pow_nonzero; lia.
      * rewrite power_ZZ_ok by lia. cbn [bind]. rewrite Nat2Z.id.
        set (x := lp_const d) in *. set (y := lp_eps d) in *.
        set (B := fun j => inject_Z (x ^ Z.of_nat (S k + K)) * IntegMath.iter (S k) (div2 (x, y)) one j).
        assert (HB0 : ~ B O == 0).
        { subst B. cbv beta. rewrite scaled_closed2 by (auto; lia). rewrite binom_0. apply injz_nz. rewrite Nat.sub_0_r. change ((-1) ^ Z.of_nat 0)%Z with 1%Z. change (y ^ Z.of_nat 0)%Z with 1%Z. rewrite !Z.mul_1_l, Z.mul_1_r. apply Z.pow_nonzero; lia. }
        destruct (denom_series2_ok (lp_pow d) k x y K B HK ltac:(lia)) with (n := S K) (i := O) (m := @new_sum rat 1) as (m2 & Em & G2).
        { intros j Hj. subst B. cbv beta. now apply scaled_closed2. }
        { exact new_grel. }
        { lia. }
        change (Z.of_nat 0) with 0%Z in Em. rewrite Em. cbn [bind deref].
        destruct (grel_trie m2 K B G2 HB0) as (t2 & Et2 & T2). rewrite Et2. cbn [deref bind].
        destruct (trie_multiply_sp K t t2 A B HT T2 HA HB0) as (t3 & Et3 & T3). rewrite Et3. cbn [bind].
        assert (HA' : ~ conv A B O == 0).
        { unfold conv. cbn [qn Nat.sub]. rewrite Qplus_0_l. intros C. apply Qmult_integral in C. tauto. }
        destruct (IH (de * x ^ (lp_pow d + Z.of_nat K))%Z t3 (conv A B) HL' T3 HA' HK) as (P & t' & A' & E1 & E2 & E3 & E4).
        exists (x ^ (lp_pow d + Z.of_nat K) * P)%Z, t', A'. rewrite Z.mul_assoc. split; auto. split; [apply Z.neq_mul_0; split; auto; apply Z.pow_nonzero; lia|]. split; auto.
        eapply seq_trans; [exact E4|]. intros j. rewrite <- (COMM A j).
        assert (CONV : conv A B ≡ (fun j => inject_Z (x ^ Z.of_nat (S k + K)) * divs2 (repeat (pair_of d) (S k)) A j)).
        { intros i. rewrite divs2_repeat. change (pair_of d) with (x, y). rewrite <- (conv_iter2 (x, y) (S k) A C0 i). unfold conv, B. rewrite <- qn_scale. apply qn_ext. intros i0 _. ring. }
        rewrite (divs2_ext _ _ _ CONV j). rewrite (divs2_scale (expand ds) _ _ (expand_regular ds) j). rewrite inject_Z_mult.
        replace (lp_pow d + Z.of_nat K)%Z with (Z.of_nat (S k + K)) by lia. ring.
Qed.

Lemma residue_lawrence_ok d M p q z ds : (length (z :: ds) = d)%nat -> (Z.of_nat (M + d) < 2 ^ 20)%Z -> (0 <= lp_pow z <= Z.of_nat d)%Z -> (lp_eps z <> 0)%Z ->
  (p <> 0)%Z -> Forall (fun x => (lp_const x = 0 -> lp_pow x = -1)%Z) ds -> Forall (fun x => (lp_pow x + lp_pow z < 2 ^ 20)%Z) ds ->
  exists A B, residue_lawrence (Z.of_nat d) (Z.of_nat M) (mkLp p q 0) (z :: ds) = Ok (A, B) /\ (B <> 0)%Z /\
    inject_Z A / inject_Z B == divs2 (expand ds) (binomial_series p q (M + d)) (Z.to_nat (lp_pow z)) / inject_Z (lp_eps z).
Proof.
  intros Ln HM [T0 T1] E0 P0 FC FB. unfold residue_lawrence. cbn [lp_const lp_eps].
  destruct (Z_of_nat_complete (lp_pow z) T0) as [K HK]. rewrite HK in *. rewrite Nat2Z.id.
  replace (Z.to_nat (Z.of_nat K + 1)) with (S K) by lia. rewrite <- Nat2Z.inj_add.
  destruct (numer_series2_ok (M + d) p q (binomial_series p q (M + d)) (fun j _ => Qeq_refl _) HM (S K) O (@new_sum rat 1)) as (m1 & E1 & G1); [exact new_grel|lia|].
  change (Z.of_nat 0) with 0%Z in E1. rewrite E1. cbn [bind].
  assert (A0 : ~ binomial_series p q (M + d) 0 == 0).
  { unfold binomial_series. apply injz_nz. rewrite binom_0, Nat.sub_0_r. change (q ^ Z.of_nat 0)%Z with 1%Z. rewrite Z.mul_1_l, Z.mul_1_r. apply Z.pow_nonzero; lia. }
  destruct (grel_trie m1 K _ G1 A0) as (t1 & Et1 & T1'). rewrite Et1.
  replace (firstn (Z.to_nat (Z.of_nat d - 1)) ds) with ds by (symmetry; apply firstn_all2; cbn [length] in Ln; lia).
  destruct (lawrence_loop_ok K ds (lp_eps z) t1 (binomial_series p q (M + d))) as (P & t' & A' & L1 & L2 & L3 & L4); auto; [|lia|].
  { rewrite Forall_forall in *. intros x Hx. specialize (FC x Hx). specialize (FB x Hx). destruct (Z_le_gt_dec (lp_pow x) 0); [now left|right]. split; [intros C; rewrite FC in g by auto; lia|]. exact FB. }
  rewrite L1. cbn [bind snd fst deref].
  destruct (trie_poly_terms 1 t' _ L3) as (out & Eo & ND & Gd & Pq). rewrite Eo. cbn [bind]. cbv zeta.
  destruct (find_coeff_ok (Z.of_nat K) out) as [F1 F2]; auto.
  { eapply Forall_impl; [|exact Gd]. cbv beta. tauto. }
  eexists; eexists; split; [reflexivity|]. destruct F1 as [D1 D2].
  assert (DN : (den (find_coeff out (Z.of_nat K)) <> 0)%Z) by lia.
  split; [apply Z.neq_mul_0; split; auto; apply Z.neq_mul_0; auto|].
  assert (PK : coef (terms_poly out) [Z.of_nat K] == coef (sp (S K) A') [Z.of_nat K]) by apply Pq. rewrite PK, coef_sp in F2. destruct (Z.leb_spec 0 (Z.of_nat K)); [|lia]. destruct (Z.ltb_spec (Z.of_nat K) (Z.of_nat (S K))); [|lia]. cbn [andb] in F2. rewrite Nat2Z.id, (L4 K) in F2.
  rewrite value_div in F2 by exact D1. rewrite Z.mul_1_l, !inject_Z_mult.
  assert (X : inject_Z (num (find_coeff out (Z.of_nat K))) == inject_Z (den (find_coeff out (Z.of_nat K))) * (inject_Z P * divs2 (expand ds) (binomial_series p q (M + d)) K)).
  { rewrite <- F2. field. now apply injz_nz. }
  rewrite X. field. split; [|split]; now apply injz_nz.
Qed.
