(** The dilated polynomial. *)
From Coq Require Import QArith Qabs Qfield Qpower Permutation.
From Verif Require Import Common Rational RationalSpec RationalProofs RatVec RatVecSpec RatVecProofs Trie TrieSpec TrieProofs TrieProofs2 Integ IntegSpec IntegMath IntegProofs2 IntegProofs4 IntegProofs5 DecompProofs DecompProofs3 DecompProofs4 Series ZMat Det DetProofs PerturbSpec PerturbProofs6 Valuation ValuationSpec ValuationSpec2 ValuationProofs ValuationProofs2 ValuationProofs3 ValuationProofs4 ValuationProofs5.
Open Scope Z_scope.

Lemma fold_add_zdeg e : forall a, fold_left Z.add e a = a + zdeg e.
Proof. induction e as [|x e IH]; intros a; cbn [fold_left zdeg fold_right]; [lia|]. fold (zdeg e). rewrite IH. lia. Qed.
Lemma zdeg_nonneg e : nat_exps e -> 0 <= zdeg e.
Proof. induction 1 as [|a e Ha He IH]; cbn [zdeg fold_right]; [lia|]. fold (zdeg e). lia. Qed.
Lemma zdeg_0 e : nat_exps e -> zdeg e = 0 -> e = map (fun _ => 0) e.
Proof. induction 1 as [|a e Ha He IH]; cbn [zdeg fold_right map]; [auto|]. fold (zdeg e). intros H. pose proof (zdeg_nonneg e He). f_equal; [lia|apply IH; lia]. Qed.
Lemma mono_zero {A} (e : list A) x : (qmono (map (fun _ => 0%Z) e) x == 1)%Q.
Proof. revert x. induction e as [|a e IH]; intros [|y x]; cbn [map qmono]; try reflexivity. rewrite IH. cbn. ring. Qed.
Lemma mono_scale k e : nat_exps e -> forall x, length x = length e -> (qmono e (qscale k x) == inject_Z k ^ zdeg e * qmono e x)%Q.
Proof.
  induction 1 as [|a e Ha He IH]; intros [|y x] L; cbn [length] in L; try discriminate; cbn [qscale map qmono zdeg fold_right]; [reflexivity|]. fold (qscale k x) (zdeg e). rewrite IH by lia.
  pose proof (zdeg_nonneg e He). rewrite <- (Z2Nat.id a), <- (Z2Nat.id (zdeg e)) by auto. rewrite <- Nat2Z.inj_add, qpow_add, Qmult_power. ring.
Qed.
Lemma dot_scale k l : forall x, (qdot l (qscale k x) == inject_Z k * qdot l x)%Q.
Proof. induction l as [|a l IH]; intros [|y x]; cbn [qscale map qdot]; try ring. fold (qscale k x). rewrite IH. ring. Qed.

Definition dmon (k : Z) (t : bterm rat) : rat * Z * list Z := (rat_div_z (t_coef t) (k ^ zdeg (t_exps t)), -1, t_exps t).
Definition constant (t : bterm rat) : bool := zdeg (t_exps t) =? 0.
Definition dmons (k : Z) (ts : list (bterm rat)) := map (dmon k) (filter (fun t => negb (constant t)) ts).
Definition mconst (ts : list (bterm rat)) (c : rat) : rat := fold_left (fun c t => rat_add c (rat_div_z (t_coef t) 1)) (filter constant ts) c.
Lemma monomials_eq k ts : Forall (fun t => nat_exps (t_exps t)) ts -> forall m c nc, dilate_monomials k ts m c nc =
  bind (insert_all rat_add rat_zero (dmons k ts) m) (fun m' => Ok (m', mconst ts c, (nc + length (filter constant ts))%nat)).
Proof.
  induction 1 as [|t ts Ht HF IH]; intros m c nc; cbn [dilate_monomials]; [unfold mconst; cbn; now rewrite Nat.add_0_r|].
  cbv zeta. rewrite fold_add_zdeg, Z.add_0_l. pose proof (zdeg_nonneg _ Ht). rewrite ntl_power_ok by auto. cbn [bind]. unfold dmons, mconst. cbn [filter]. change (zdeg (t_exps t) =? 0) with (constant t).
  destruct (constant t) eqn:K; cbn [negb].
  - apply Z.eqb_eq in K. rewrite IH. cbn [fold_left length]. rewrite K, Nat.add_succ_r. reflexivity.
  - cbn [map]. unfold insert_all at 1. cbn [fold_out dmon fst snd]. unfold insert_monomial.
    destruct (insert_form rat_add rat_zero m (rat_div_z (t_coef t) (k ^ zdeg (t_exps t))) (-1) (t_exps t)); cbn [bind]; [|reflexivity]. rewrite IH. reflexivity.
Qed.
Lemma mconst_ok ts : Forall (fun t => lowest_terms (t_coef t)) ts -> forall c, lowest_terms c ->
  lowest_terms (mconst ts c) /\ (value (mconst ts c) == value c + qsum (fun t => value (t_coef t)) (filter constant ts))%Q.
Proof.
  unfold mconst. induction 1 as [|t ts Ht HF IH]; intros c Hc; cbn [filter]; [split; auto; cbn; ring|]. destruct (constant t); [|apply IH; auto].
  cbn [fold_left qsum]. destruct (rat_div_z_ok (t_coef t) 1 Ht ltac:(lia)) as [D1 D2]. destruct (rat_add_ok c _ Hc D1) as [A1 A2]. destruct (IH _ A1) as [I1 I2]. split; auto. rewrite I2, A2, D2. change (inject_Z 1) with 1%Q. unfold Qdiv. change (/ 1)%Q with 1%Q. ring.
Qed.

Lemma rat_zero_num c : lowest_terms c -> Qeq_bool (value c) 0 = rat_zero c.
Proof.
  intros H. pose proof (rat_zero_ok c H) as R. destruct (rat_zero c); [apply Qeq_bool_iff, R; auto|]. destruct (Qeq_bool (value c) 0) eqn:E; auto. apply Qeq_bool_iff in E. apply R in E. congruence.
Qed.
Lemma nonzero_as_input l : Forall (fun p => lowest_terms (fst p)) l -> TrieProofs.nonzero rat_zero (as_input l) = as_input (nonzero_monomials l).
Proof.
  unfold TrieProofs.nonzero, nonzero_monomials, as_input. induction 1 as [|p l H HF IH]; cbn [map filter fst]; [reflexivity|]. rewrite rat_zero_num by auto.
  destruct (rat_zero (fst p)); cbn [negb map]; rewrite IH; reflexivity.
Qed.
Lemma coefficient_nonzero l : Forall (fun p => lowest_terms (fst p)) l -> forall d x, (coefficient (as_input (nonzero_monomials l)) d x == coefficient (as_input l) d x)%Q.
Proof.
  induction 1 as [|p l H HF IH]; intros d x; [reflexivity|]. unfold nonzero_monomials. cbn [filter]. fold (nonzero_monomials l). destruct (Qeq_bool (value (fst p)) 0) eqn:E; cbn [negb as_input map coefficient fst snd].
  - fold (as_input l). rewrite IH. apply Qeq_bool_iff in E. destruct (_ && _); rewrite ?E; ring.
  - fold (as_input l) (as_input (nonzero_monomials l)). rewrite IH. reflexivity.
Qed.
(** What is stored for a polynomial: as many terms as monomials exactly if none is repeated. *)
Lemma stored n l : n <> O -> Forall (fun p => lowest_terms (fst p) /\ length (snd p) = n) l -> nonzero_monomials l <> [] ->
  exists p ts, insert_all rat_add rat_zero (as_input l) (new_sum n) = Ok p /\ ms_vars p = n /\ ms_terms p = length (nonzero_monomials l) /\ sum_terms rat_zero p = Ok ts /\
    NoDup (map t_exps ts) /\ Forall (fun t => lowest_terms (t_coef t) /\ ~ (value (t_coef t) == 0)%Q /\ In (t_exps t) (map snd l)) ts /\
    (forall x, (qsum (term_value x) ts == poly_at (input_poly l) x)%Q) /\
    (NoDup (map snd (nonzero_monomials l)) <-> length ts = length (nonzero_monomials l)).
Proof.
  intros Hn HL NE. assert (L1 : Forall (fun p => lowest_terms (fst p)) l) by (eapply Forall_impl; [|exact HL]; cbv beta; tauto).
  destruct (trie_exact n (as_input l) Hn) as (p & ts & E1 & E2 & E3 & E4 & E5 & _).
  { unfold as_input. apply Forall_map. eapply Forall_impl; [|exact HL]. cbn [fst snd]. auto. }
  { destruct (nonzero_monomials l) as [|q r] eqn:E; [congruence|]. assert (In q (nonzero_monomials l)) as Hq by (rewrite E; now left). apply filter_In in Hq as [Q1 Q2].
    exists (fst q, -1, snd q). split; [unfold as_input; apply in_map_iff; now exists q|]. cbn [fst]. intros V. apply Qeq_bool_iff in V. rewrite V in Q2. discriminate. }
  pose proof (insert_all_store _ _ _ E1) as [V T]. rewrite nonzero_as_input in T by auto. cbn [ms_terms new_sum] in T. rewrite Nat.add_0_r in T. unfold as_input in T at 1. rewrite map_length in T.
  assert (KEY : forall t, In t ts -> In (t_exps t) (map snd (nonzero_monomials l)) /\ t_deg t = -1).
  { intros t Ht. rewrite Forall_forall in E4. destruct (E4 t Ht) as [_ A]. assert (C : ~ (coefficient (as_input (nonzero_monomials l)) (t_deg t) (t_exps t) == 0)%Q).
    { rewrite coefficient_nonzero by auto. rewrite <- E5. rewrite (coefficient_nodup ts (t_deg t) (t_exps t) (t_coef t)); auto. now destruct t. }
    apply coefficient_in in C as (q & Hq & K1 & K2). unfold as_input in Hq. apply in_map_iff in Hq as (r & <- & Hr). cbn [fst snd] in *. split; [|auto]. rewrite <- K2. now apply in_map. }
  assert (ND : NoDup (map t_exps ts)).
  { clear - E3 KEY. induction ts as [|t ts IH]; cbn [map] in *; [constructor|]. apply NoDup_cons_iff in E3 as [N1 N2]. constructor; [|apply IH; auto; intros u Hu; apply KEY; now right].
    intros H. apply N1. apply in_map_iff in H as (u & E & Hu). apply in_map_iff. exists u. split; auto. rewrite E.
    rewrite (proj2 (KEY u ltac:(now right))), (proj2 (KEY t ltac:(now left))). reflexivity. }
  assert (INC : incl (map t_exps ts) (map snd (nonzero_monomials l))). { intros e He. apply in_map_iff in He as (t & <- & Ht). now apply KEY. }
  exists p, ts. split; auto. split; [exact V|]. split; [exact T|]. split; auto. split; auto. split; [|split].
  - apply Forall_forall. intros t Ht. rewrite Forall_forall in E4. destruct (E4 t Ht) as [A B]. split; auto. split; auto. destruct (KEY t Ht) as [K _]. apply in_map_iff in K as (q & <- & Hq). apply in_map. now apply filter_In in Hq.
  - intros x. unfold poly_at. rewrite sum_over_qsum. pose (h := fun (d : Z) e => qmono e x).
    transitivity (wsum h (map triple ts)); [unfold wsum; rewrite qsum_map; reflexivity|]. rewrite (wsum_eq h _ (map triple ts) (as_input l) (le_n _) E5).
    unfold wsum, as_input, input_poly. rewrite !qsum_map. reflexivity.
  - pose proof (NoDup_incl_length ND INC) as LE. rewrite !map_length in LE. split.
    + intros NZ. assert (INC2 : incl (map snd (nonzero_monomials l)) (map t_exps ts)).
      { intros e He. apply in_map_iff in He as (q & <- & Hq). pose (o := map (fun p => mkTerm (fst p) (snd p) (-1)) (nonzero_monomials l)).
        assert (TO : map triple o = as_input (nonzero_monomials l)) by (unfold o, as_input; rewrite map_map; reflexivity).
        assert (C : (coefficient (map triple o) (-1) (snd q) == value (fst q))%Q).
        { apply coefficient_nodup; [|unfold o; apply in_map_iff; now exists q]. clear - NZ. unfold TrieProofs.keys, o. rewrite map_map. cbn [t_deg t_exps]. rewrite <- map_map with (f := snd) (g := fun e => (-1, e)).
          apply FinFun.Injective_map_NoDup; auto. intros a b. congruence. }
        rewrite TO, coefficient_nonzero, <- E5 in C by auto. assert (CN : ~ (coefficient (map triple ts) (-1) (snd q) == 0)%Q).
        { rewrite C. intros Z0. pose proof Hq as Hq2. apply filter_In in Hq2 as [Q1 Q2]. apply Qeq_bool_iff in Z0. rewrite Z0 in Q2. discriminate. }
        apply coefficient_in in CN as (r & Hr & _ & R2). apply in_map_iff in Hr as (t & <- & Ht). cbn [triple snd] in R2. rewrite <- R2. now apply in_map. }
      pose proof (NoDup_incl_length NZ INC2) as LE2. rewrite !map_length in LE2. lia.
    + intros EL. apply (NoDup_incl_NoDup ND); [rewrite !map_length; lia|exact INC].
Qed.
Lemma count_split {A} (b : A -> bool) (l : list A) : (length l = length (filter (fun x => negb (b x)) l) + length (filter b l))%nat.
Proof. induction l as [|a l IH]; cbn [filter length]; [reflexivity|]. destruct (b a); cbn [negb length]; lia. Qed.
Definition monomial_input (n : nat) (p : rat * list Z) : Prop :=
  lowest_terms (fst p) /\ length (snd p) = n /\ Forall (fun e => 0 <= e) (snd p) /\ degree (snd p) + Z.of_nat n < 2 ^ 20 - 1.
Lemma nonzero_dmons n k ts : 0 < k -> good_terms n ts -> Forall (fun q => lowest_terms (fst (fst q)) /\ length (snd q) = n /\ ~ (value (fst (fst q)) == 0)%Q) (dmons k ts).
Proof.
  intros Hk G. unfold dmons. apply Forall_map. apply Forall_forall. intros t Ht. apply filter_In in Ht as [Ht _]. unfold good_terms in G. rewrite Forall_forall in G. destruct (G t Ht) as (A & B & C & D). cbn [dmon fst snd].
  pose proof (kpow_nz k (zdeg (t_exps t)) Hk (zdeg_nonneg _ C)) as KN. destruct (rat_div_z_ok (t_coef t) _ A KN) as [R1 R2]. split; auto. split; auto.
  rewrite R2. intros X. apply B. rewrite <- (Qmult_div_r (value (t_coef t)) (inject_Z (k ^ zdeg (t_exps t)))) by (now apply injz_nz). rewrite X. ring.
Qed.
Lemma nonzero_all l : Forall (fun q => lowest_terms (fst (fst q)) /\ ~ (value (fst (fst q)) == 0)%Q) l -> TrieProofs.nonzero rat_zero l = l.
Proof. unfold TrieProofs.nonzero. induction 1 as [|q l (A & B) HF IH]; cbn [filter]; [reflexivity|]. destruct (rat_zero (fst (fst q))) eqn:Z0; [apply rat_zero_ok in Z0; auto; contradiction|]. cbn [negb]. now rewrite IH. Qed.

(** Both the good case and the failed assertion. *)
Lemma dilate_polynomial_ok n k l : n <> O -> 0 < k -> Forall (monomial_input n) l -> nonzero_monomials l <> [] ->
  exists p, insert_all rat_add rat_zero (as_input l) (new_sum n) = Ok p /\ ms_vars p = n /\
    (~ NoDup (map snd (nonzero_monomials l)) -> dilate_polynomial p k = Err AssertFail) /\
    (NoDup (map snd (nonzero_monomials l)) -> exists m c out, dilate_polynomial p k = Ok (m, c) /\ split_form n k m c out /\
      Forall (fun t => exists p, In p l /\ t_deg t = degree (snd p)) out /\
      forall x, length x = n -> (value c + qsum (fun t => value (t_coef t) * (inject_Z k ^ t_deg t * (qdot (t_exps t) x ^ t_deg t / inject_Z (zfact (Z.to_nat (t_deg t)))))) out == poly_at (input_poly l) x)%Q).
Proof.
  intros Hn Hk HL NE. destruct (stored n l Hn) as (p & ts & E1 & V & T & E2 & ND & E4 & E5 & E6); auto.
  { eapply Forall_impl; [|exact HL]. unfold monomial_input. cbv beta. tauto. }
  exists p. split; auto. split; auto.
  assert (TS : Forall (fun t => (lowest_terms (t_coef t) /\ ~ (value (t_coef t) == 0)%Q /\ nat_exps (t_exps t) /\ length (t_exps t) = n) /\ zdeg (t_exps t) + Z.of_nat n < 2 ^ 20 - 1) ts).
  { eapply Forall_impl; [|exact E4]. cbv beta. intros t (A & B & C). apply in_map_iff in C as (q & Q1 & Q2). rewrite Forall_forall in HL. specialize (HL q Q2). unfold monomial_input in HL. rewrite Q1 in HL. unfold nat_exps. change (zdeg (t_exps t)) with (degree (t_exps t)). tauto. }
  assert (G : good_terms n ts) by (eapply Forall_impl; [|exact TS]; cbv beta; tauto).
  assert (TS0 : Forall (fun t => nat_exps (t_exps t)) ts) by (eapply Forall_impl; [|exact TS]; cbv beta; tauto).
  assert (TS1 : Forall (fun t => lowest_terms (t_coef t)) ts) by (eapply Forall_impl; [|exact TS]; cbv beta; tauto).
  assert (L01 : lowest_terms (mkRat 0 1)) by (split; cbn; lia || reflexivity).
  destruct (mconst_ok ts TS1 (mkRat 0 1) L01) as [CC1 CC2].
  pose proof (nonzero_dmons n k ts Hk G) as DG.
  assert (DG2 : Forall (fun q => lowest_terms (fst (fst q)) /\ ~ (value (fst (fst q)) == 0)%Q) (dmons k ts)) by (eapply Forall_impl; [|exact DG]; cbv beta; tauto).
  assert (DG3 : Forall (fun q => lowest_terms (fst (fst q)) /\ length (snd q) = n) (dmons k ts)) by (eapply Forall_impl; [|exact DG]; cbv beta; tauto).
  (* insertion of the dilated monomials *)
  assert (INS : exists m ts', insert_all rat_add rat_zero (dmons k ts) (new_sum n) = Ok m /\ ms_vars m = n /\ ms_terms m = length (dmons k ts) /\
     (dmons k ts <> [] -> sum_terms rat_zero m = Ok ts' /\ NoDup (map (fun t => (t_deg t, t_exps t)) ts') /\
        Forall (fun t => lowest_terms (t_coef t) /\ ~ (value (t_coef t) == 0)%Q) ts' /\ (forall d x, (coefficient (map triple ts') d x == coefficient (dmons k ts) d x)%Q)) /\ (dmons k ts = [] -> m = new_sum n)).
  { destruct (dmons k ts) as [|q qs] eqn:EQ.
    - exists (new_sum n), []. split; [reflexivity|]. split; [reflexivity|]. split; [reflexivity|]. split; [congruence|reflexivity].
    - destruct (trie_exact n (q :: qs) Hn DG3) as (m & ts' & F1 & F2 & F3 & F4 & F5 & _); [exists q; split; [now left|apply (Forall_inv DG2)]|].
      pose proof (insert_all_store _ _ _ F1) as [MV MT]. rewrite nonzero_all in MT by auto. cbn [ms_terms new_sum] in MT. rewrite Nat.add_0_r in MT.
      exists m, ts'. split; auto. split; [exact MV|]. split; auto. split; [auto|discriminate]. }
  destruct INS as (m & ts' & F1 & F2 & F3 & F4 & F5).
  assert (MT : ms_terms m = length (filter (fun t => negb (constant t)) ts)) by (rewrite F3; unfold dmons; apply map_length).
  assert (RUN : dilate_polynomial p k = assert_then ((length (nonzero_monomials l) =? length ts)%nat)
     (assert_then (length (filter constant ts) <=? 1)%nat (if (ms_terms m =? 0)%nat then Ok (new_sum n, mconst ts (mkRat 0 1)) else bind (sum_terms rat_zero m) (fun ts' => bind (decompose ts' (new_sum n)) (fun f => Ok (f, mconst ts (mkRat 0 1))))))).
  { unfold dilate_polynomial. rewrite E2. cbn [bind]. rewrite monomials_eq by auto. rewrite V, F1. cbn [bind Nat.add]. rewrite F2, T, Nat.eqb_refl, andb_true_r, MT, <- (count_split constant ts). reflexivity. }
  split.
  - intros DUP. rewrite RUN. destruct (Nat.eqb_spec (length (nonzero_monomials l)) (length ts)) as [E|E]; [|reflexivity]. exfalso. apply DUP. apply E6. auto.
  - intros NZ. apply E6 in NZ. rewrite RUN, NZ, Nat.eqb_refl. cbn [assert_then].
    assert (C1 : (length (filter constant ts) <=? 1)%nat = true).
    { apply Nat.leb_le. assert (I : incl (map t_exps (filter constant ts)) [repeat 0 n]).
      { intros e He. apply in_map_iff in He as (t & <- & Ht). apply filter_In in Ht as [Ht C]. left. apply Z.eqb_eq in C. unfold good_terms in G. rewrite Forall_forall in G. destruct (G t Ht) as (_ & _ & A & B). rewrite (zdeg_0 _ A C), <- B. clear. induction (t_exps t); cbn; congruence. }
      apply (NoDup_incl_length) in I; [rewrite map_length in I; exact I|]. clear - ND. induction ts as [|t ts IH]; cbn [filter map] in *; [constructor|]. apply NoDup_cons_iff in ND as [N1 N2]. destruct (constant t); cbn [map]; auto. constructor; auto.
      intros H. apply N1. apply in_map_iff in H as (u & E & Hu). apply in_map_iff. exists u. split; auto. now apply filter_In in Hu. }
    rewrite C1. cbn [assert_then].
    assert (CV : forall x, length x = n -> (value (mconst ts (mkRat 0 1)) + qsum (term_value x) (filter (fun t => negb (constant t)) ts) == poly_at (input_poly l) x)%Q).
    { intros x LX. rewrite <- E5. rewrite (qsum_split constant (term_value x) ts). apply Qplus_comp; [|reflexivity]. rewrite CC2. change (value (mkRat 0 1)) with (0#1)%Q. rewrite (Qplus_0_l (qsum _ _)). apply qsum_ext. intros t Ht. apply filter_In in Ht as [Ht C].
      apply Z.eqb_eq in C. unfold good_terms in G. rewrite Forall_forall in G. destruct (G t Ht) as (_ & _ & A & B). unfold term_value. rewrite (zdeg_0 _ A C), mono_zero. ring. }
    destruct (Nat.eqb_spec (ms_terms m) 0) as [M0|M0].
    + exists (new_sum n), (mconst ts (mkRat 0 1)), []. split; auto. split; [split; [reflexivity|]; split; auto|]. split; [constructor|]. intros x LX. rewrite <- (CV x LX). apply Qplus_comp; [reflexivity|]. rewrite MT in M0. apply length_zero_iff_nil in M0. rewrite M0. reflexivity.
    + destruct F4 as (S1 & S2 & S3 & S4); [intros E; apply M0; rewrite F3, E; reflexivity|]. rewrite S1. cbn [bind].
      pose proof (in_terms n _ m ts' Hn DG3 S2 S3 S4 S1) as IT.
      assert (SRC : forall t, In t ts' -> exists u, In u ts /\ constant u = false /\ t_deg t = -1 /\ t_exps t = t_exps u).
      { intros t Ht. rewrite Forall_forall in IT. destruct (IT t Ht) as (_ & _ & q & Hq & Q1 & Q2). unfold dmons in Hq. apply in_map_iff in Hq as (u & <- & Hu). apply filter_In in Hu as [Hu Cu]. cbn [dmon fst snd] in *. exists u. split; auto. split; [now destruct (constant u)|]. auto. }
      rewrite Forall_forall in TS.
      assert (G' : good_terms n ts').
      { apply Forall_forall. intros t Ht. rewrite Forall_forall in S3. destruct (S3 t Ht) as [A B]. destruct (SRC t Ht) as (u & Hu & _ & _ & EU). destruct (TS u Hu) as ((_ & _ & C & D) & _). rewrite EU. auto. }
      assert (ND' : NoDup (map t_exps ts')).
      { clear - S2 SRC. induction ts' as [|t ts' IH]; cbn [map] in *; [constructor|]. apply NoDup_cons_iff in S2 as [N1 N2]. constructor; [|apply IH; auto; intros u Hu; apply SRC; now right].
        intros H. apply N1. apply in_map_iff in H as (u & E & Hu). apply in_map_iff. exists u. split; auto. rewrite E. destruct (SRC t ltac:(now left)) as (_ & _ & _ & -> & _). destruct (SRC u ltac:(now right)) as (_ & _ & _ & -> & _). reflexivity. }
      assert (TV : forall x, length x = n -> (qsum (term_value (qscale k x)) ts' == qsum (term_value x) (filter (fun t => negb (constant t)) ts))%Q).
      { intros x LX. pose (h := fun (d : Z) e => qmono e (qscale k x)). transitivity (wsum h (map triple ts')); [unfold wsum; rewrite qsum_map; reflexivity|].
        rewrite (wsum_eq h _ (map triple ts') (dmons k ts) (le_n _) S4). unfold wsum, dmons. rewrite qsum_map. apply qsum_ext. intros t Ht. apply filter_In in Ht as [Ht _]. destruct (TS t Ht) as ((A & B & C & D) & _). unfold h, term_value. cbn [dmon fst snd].
        rewrite mono_scale by (auto; lia). pose proof (zdeg_nonneg _ C) as ZN. pose proof (kpow_nz k (zdeg (t_exps t)) Hk ZN) as KN. destruct (rat_div_z_ok (t_coef t) _ A KN) as [R1 R2]. rewrite R2. rewrite <- (Z2Nat.id (zdeg (t_exps t))) by auto. rewrite <- qpow_inj. field. apply injz_nz. rewrite Z2Nat.id; auto. }
      assert (NE' : ts' <> []).
      { intros ->. assert (Z0 : forall x, length x = n -> (qsum (term_value x) (filter (fun t => negb (constant t)) ts) == 0)%Q) by (intros x LX; rewrite <- (TV x LX); reflexivity). revert Z0. apply not_zero_function.
        - apply Forall_forall. intros t Ht. apply filter_In in Ht as [Ht _]. now destruct (TS t Ht).
        - clear - ND. induction ts as [|t ts IH]; cbn [filter map] in *; [constructor|]. apply NoDup_cons_iff in ND as [N1 N2]. destruct (constant t); cbn [negb map]; auto. constructor; auto. intros H. apply N1. apply in_map_iff in H as (u & E & Hu). apply in_map_iff. exists u. split; auto. now apply filter_In in Hu.
        - intros E. apply M0. rewrite MT, E. reflexivity. }
      destruct (decompose_exact n ts' Hn G' ND' NE') as (f & out & D1 & D2 & D3 & _ & D5 & D6). rewrite D1. cbn [bind]. exists f, (mconst ts (mkRat 0 1)), out. split; auto.
      destruct (decompose_items n ts' G') as (F & FI1 & FI2 & FI3 & FI4 & _). specialize (FI3 NE').
      assert (DT : insert_all rat_add rat_zero F (new_sum n) = Ok f). { change (ins_all F (new_sum n) = Ok f). rewrite <- FI1. unfold decompose in D1. destruct ts'; [congruence|exact D1]. }
      pose proof (insert_all_store _ _ _ DT) as [FV FT]. rewrite nonzero_all in FT.
      2:{ apply Forall_forall. intros q Hq. unfold good_items in FI2. rewrite Forall_forall in FI2, FI4. destruct (FI2 q Hq) as (A & _). destruct (FI4 q Hq) as (B & _). auto. }
      split; [split; [exact FV|]; split; auto; split; [right; split; [rewrite FT; destruct F; [congruence|cbn; lia]|split; auto]|]|].
      * eapply Forall_impl; [|exact D5]. cbv beta. intros t (A & B & C & u & Hu & Du). split; auto. destruct (SRC u Hu) as (w & Hw & Cw & _ & Ew). destruct (TS w Hw) as ((_ & _ & Nw & _) & Bw). pose proof (zdeg_nonneg _ Nw). unfold constant in Cw. apply Z.eqb_neq in Cw. unfold form_ok. rewrite Du, Ew. split; [lia|]. auto.
      * split. { eapply Forall_impl; [|exact D5]. cbv beta. intros t (A & B & C & u & Hu & Du). destruct (SRC u Hu) as (w & Hw & _ & _ & Ew). rewrite Forall_forall in E4. destruct (E4 w Hw) as (_ & _ & I). apply in_map_iff in I as (q & Q1 & Q2). exists q. split; auto. rewrite Q1, Du, Ew. reflexivity. }
        intros x LX. rewrite <- (CV x LX). apply Qplus_comp; [reflexivity|]. rewrite <- (TV x LX), <- D6 by (unfold qscale; now rewrite map_length). apply qsum_ext. intros t Ht. unfold out_value. rewrite dot_scale, Qmult_power. unfold Qdiv. ring.
Qed.
