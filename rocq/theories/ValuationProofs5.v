(** The dilated integrand. *)
From Coq Require Import QArith Qabs Qfield Qpower Permutation.
From Verif Require Import Common Rational RationalSpec RationalProofs RatVec RatVecSpec RatVecProofs Trie TrieSpec TrieProofs TrieProofs2 Integ IntegSpec IntegMath IntegProofs2 IntegProofs4 IntegProofs5 DecompProofs DecompProofs3 DecompProofs4 Series ZMat Det DetProofs PerturbSpec PerturbProofs6 Valuation ValuationSpec ValuationSpec2 ValuationProofs ValuationProofs2 ValuationProofs3 ValuationProofs4.
Open Scope Z_scope.

Lemma rat_div_z_ok a z : lowest_terms a -> z <> 0 -> lowest_terms (rat_div_z a z) /\ (value (rat_div_z a z) == value a / inject_Z z)%Q.
Proof.
  intros [A1 A2] Hz. unfold rat_div_z. destruct (canonicalize_correct (num a) (den a * z)) as [C1 C2]; [nia|]. split; auto.
  rewrite C2, (value_div a) by auto. rewrite inject_Z_mult. field. split; apply injz_nz; lia.
Qed.
Lemma ntl_power_ok k e : 0 <= e -> ntl_power k e = Ok (k ^ e).
Proof. intros H. unfold ntl_power. destruct (Z.ltb_spec e 0); [lia|reflexivity]. Qed.
Lemma kpow_nz k e : 0 < k -> 0 <= e -> k ^ e <> 0.
Proof. intros Hk He. pose proof (Z.pow_pos_nonneg k e Hk He). lia. Qed.

(** An empty collection is stored as no trie; every insertion counts. *)
Definition store_ok (m : msum rat) : Prop := ms_terms m = O -> ms_trie m = None.
Lemma insert_store m c d x m' : insert_form rat_add rat_zero m c d x = Ok m' -> ms_vars m' = ms_vars m /\
  (rat_zero c = false -> ms_terms m' = S (ms_terms m)) /\ (rat_zero c = true -> m' = m).
Proof.
  unfold insert_form. destruct (rat_zero c); [intros [= <-]; repeat split; congruence|]. cbv zeta.
  destruct (if (ms_terms m =? 0)%nat then Some empty_trie else ms_trie m) as [t|]; [|discriminate].
  destruct (insert_term rat_add t c x d); cbn [bind]; [|discriminate]. intros [= <-]. cbn. repeat split; congruence.
Qed.
Lemma insert_all_store l : forall m m', insert_all rat_add rat_zero l m = Ok m' -> ms_vars m' = ms_vars m /\ ms_terms m' = (length (TrieProofs.nonzero rat_zero l) + ms_terms m)%nat.
Proof.
  unfold insert_all. induction l as [|p l IH]; intros m m' H; cbn [fold_out] in H; [injection H as <-; split; reflexivity|].
  destruct (insert_form rat_add rat_zero m (fst (fst p)) (snd (fst p)) (snd p)) as [m1|] eqn:E; cbn [bind] in H; [|discriminate].
  apply insert_store in E as (E1 & E2 & E3). destruct (IH _ _ H) as [I1 I2]. split; [congruence|]. rewrite I2. unfold TrieProofs.nonzero. cbn [filter].
  destruct (rat_zero (fst (fst p))); cbn [negb length]; [rewrite E3 by auto; lia|rewrite E2 by auto; lia].
Qed.

(** ** Linear forms *)
Definition dform (k : Z) (t : bterm rat) : rat * Z * list Z := (rat_div_z (t_coef t) (k ^ t_deg t), t_deg t, t_exps t).
Definition dforms (k : Z) (ts : list (bterm rat)) := map (dform k) (filter (fun t => negb (t_deg t =? 0)) ts).
Definition dconst (ts : list (bterm rat)) (c : rat) : rat := fold_left (fun c t => rat_add c (t_coef t)) (filter (fun t => t_deg t =? 0) ts) c.
Lemma forms_loop_eq k ts : Forall (fun t => 0 <= t_deg t) ts -> forall m c, dilate_forms_loop k ts m c = bind (insert_all rat_add rat_zero (dforms k ts) m) (fun m' => Ok (m', dconst ts c)).
Proof.
  induction 1 as [|t ts Ht HF IH]; intros m c; cbn [dilate_forms_loop]; [reflexivity|]. unfold dforms, dconst. cbn [filter].
  destruct (Z.eqb_spec (t_deg t) 0) as [E|E]; cbn [negb].
  - rewrite IH. reflexivity.
  - rewrite ntl_power_ok by auto. cbn [bind map]. unfold insert_all at 1. cbn [fold_out dform fst snd].
    destruct (insert_form rat_add rat_zero m (rat_div_z (t_coef t) (k ^ t_deg t)) (t_deg t) (t_exps t)); cbn [bind]; [|reflexivity]. rewrite IH. reflexivity.
Qed.
Lemma dconst_ok ts : Forall (fun t => lowest_terms (t_coef t)) ts -> forall c, lowest_terms c ->
  lowest_terms (dconst ts c) /\ (value (dconst ts c) == value c + qsum (fun t => value (t_coef t)) (filter (fun t => (t_deg t =? 0)%Z) ts))%Q.
Proof.
  unfold dconst. induction 1 as [|t ts Ht HF IH]; intros c Hc; cbn [filter]; [split; auto; cbn; ring|]. destruct (t_deg t =? 0); [|apply IH; auto].
  cbn [fold_left qsum]. destruct (rat_add_ok c (t_coef t) Hc Ht) as [A1 A2]. destruct (IH _ A1) as [I1 I2]. split; auto. rewrite I2, A2. ring.
Qed.
Lemma qsum_split {A} (b : A -> bool) (f : A -> Q) l : (qsum f l == qsum f (filter b l) + qsum f (filter (fun x => negb (b x)) l))%Q.
Proof. induction l as [|a l IH]; cbn [filter qsum]; [ring|]. destruct (b a); cbn [negb qsum]; rewrite IH; ring. Qed.
(** The terms [out] (no constant) and the constant [c] are the integrand on the dilated polytope. *)
Definition split_form (n : nat) (k : Z) (m : msum rat) (c : rat) (out : list (bterm rat)) : Prop :=
  ms_vars m = n /\ lowest_terms c /\ (ms_terms m = O /\ out = [] \/ ms_terms m <> O /\ sum_terms rat_zero m = Ok out /\ out <> []) /\
  Forall (fun t => form_ok n t /\ length (t_exps t) = n) out.
Lemma in_terms n l m out : n <> O -> Forall (fun p => lowest_terms (fst (fst p)) /\ length (snd p) = n) l ->
  NoDup (map (fun t => (t_deg t, t_exps t)) out) ->
    Forall (fun t => lowest_terms (t_coef t) /\ ~ (value (t_coef t) == 0)%Q) out ->
    (forall d x, (coefficient (map triple out) d x == coefficient l d x)%Q) -> sum_terms rat_zero m = Ok out ->
  Forall (fun t => lowest_terms (t_coef t) /\ ~ (value (t_coef t) == 0)%Q /\ exists p, In p l /\ snd (fst p) = t_deg t /\ snd p = t_exps t) out.
Proof.
  intros Hn HL ND F C _. apply Forall_forall. intros t Ht. rewrite Forall_forall in F. destruct (F t Ht) as [F1 F2]. split; auto. split; auto.
  apply coefficient_in. rewrite <- C. rewrite (coefficient_nodup out (t_deg t) (t_exps t) (t_coef t)); auto. now destruct t.
Qed.
Lemma dilate_forms_ok n k l : n <> O -> 0 < k -> Forall (form_input n) l -> (exists p, In p l /\ ~ (value (fst (fst p)) == 0)%Q) ->
  exists p m c out, insert_all rat_add rat_zero l (new_sum n) = Ok p /\ dilate_forms p k = Ok (m, c) /\ split_form n k m c out /\
    forall (h : Z -> list Z -> Q) h0, (forall e, h 0%Z e == h0)%Q ->
      (value c * h0 + qsum (fun t => value (t_coef t) * (inject_Z k ^ t_deg t * h (t_deg t) (t_exps t))) out == qsum (fun p => value (fst (fst p)) * h (snd (fst p)) (snd p)) l)%Q.
Proof.
  intros Hn Hk HL HN.
  assert (HL' : Forall (fun p => lowest_terms (fst (fst p)) /\ length (snd p) = n) l) by (eapply Forall_impl; [|exact HL]; unfold form_input; cbv beta; tauto).
  destruct (trie_exact n l Hn HL' HN) as (p & ts & E1 & E2 & E3 & E4 & E5 & _). pose proof (insert_all_store _ _ _ E1) as [EV _].
  pose proof (in_terms n l p ts Hn HL' E3 E4 E5 E2) as IT. rewrite Forall_forall in HL.
  assert (TS : Forall (fun t => lowest_terms (t_coef t) /\ ~ (value (t_coef t) == 0)%Q /\ length (t_exps t) = n /\ 0 <= t_deg t /\ t_deg t + Z.of_nat n < 2 ^ 20 - 1) ts).
  { eapply Forall_impl; [|exact IT]. cbv beta. intros t (A & B & q & Hq & Q1 & Q2). specialize (HL q Hq). unfold form_input in HL. rewrite Q1, Q2 in HL. tauto. }
  assert (TS0 : Forall (fun t => 0 <= t_deg t) ts) by (eapply Forall_impl; [|exact TS]; cbv beta; tauto).
  assert (TS1 : Forall (fun t => lowest_terms (t_coef t)) ts) by (eapply Forall_impl; [|exact TS]; cbv beta; tauto).
  assert (DF : dilate_forms p k = bind (insert_all rat_add rat_zero (dforms k ts) (new_sum n)) (fun m' => Ok (m', dconst ts (mkRat 0 1)))).
  { unfold dilate_forms. rewrite E2. cbn [bind]. rewrite EV. cbn [ms_vars new_sum]. apply forms_loop_eq; auto. }
  assert (L01 : lowest_terms (mkRat 0 1)) by (split; cbn; lia || reflexivity).
  destruct (dconst_ok ts TS1 (mkRat 0 1) L01) as [CC1 CC2].
  assert (SUM : forall h h0, (forall e, h 0%Z e == h0)%Q -> (value (dconst ts (mkRat 0 1)) * h0 + qsum (fun t => value (t_coef t) * h (t_deg t) (t_exps t)) (filter (fun t => negb (t_deg t =? 0)%Z) ts) == qsum (fun p => value (fst (fst p)) * h (snd (fst p)) (snd p)) l)%Q).
  { intros h h0 H0. transitivity (wsum h (map triple ts)); [|exact (wsum_eq h _ (map triple ts) l (le_n _) E5)]. unfold wsum. rewrite qsum_map. cbn [triple fst snd].
    rewrite (qsum_split (fun t => (t_deg t =? 0)%Z) _ ts). apply Qplus_comp; [|reflexivity]. rewrite CC2. change (value (mkRat 0 1)) with (0#1)%Q.
    rewrite (Qplus_0_l (qsum _ _)), Qmult_comm, <- qsum_scale. apply qsum_ext. intros t Ht. apply filter_In in Ht as [_ Ht]. apply Z.eqb_eq in Ht. rewrite Ht, H0. ring. }
  assert (DG : Forall (fun q => lowest_terms (fst (fst q)) /\ length (snd q) = n /\ 1 <= snd (fst q) /\ snd (fst q) + Z.of_nat n < 2 ^ 20 - 1 /\ ~ (value (fst (fst q)) == 0)%Q) (dforms k ts)).
  { unfold dforms. apply Forall_map. apply Forall_forall. intros t Ht. apply filter_In in Ht as [Ht Hd]. rewrite Forall_forall in TS. destruct (TS t Ht) as (A & B & C & D & F). cbn [dform fst snd].
    destruct (Z.eqb_spec (t_deg t) 0); [discriminate|]. pose proof (kpow_nz k (t_deg t) Hk D) as KN. destruct (rat_div_z_ok (t_coef t) _ A KN) as [R1 R2]. split; auto. split; auto. split; [lia|]. split; auto.
    rewrite R2. intros X. apply B. rewrite <- (Qmult_div_r (value (t_coef t)) (inject_Z (k ^ t_deg t))) by (now apply injz_nz). rewrite X. ring. }
  assert (DS : forall h, (wsum (fun d e => inject_Z k ^ d * h d e) (dforms k ts) == qsum (fun t => value (t_coef t) * h (t_deg t) (t_exps t)) (filter (fun t => negb (t_deg t =? 0)%Z) ts))%Q).
  { intros h. unfold wsum, dforms. rewrite qsum_map. apply qsum_ext. intros t Ht. apply filter_In in Ht as [Ht _]. rewrite Forall_forall in TS. destruct (TS t Ht) as (A & B & C & D & F). cbn [dform fst snd].
    pose proof (kpow_nz k (t_deg t) Hk D) as KN. destruct (rat_div_z_ok (t_coef t) _ A KN) as [R1 R2]. rewrite R2. rewrite <- (Z2Nat.id (t_deg t)) by auto. rewrite <- qpow_inj. field. apply injz_nz. rewrite Z2Nat.id; auto. }
  destruct (dforms k ts) as [|q qs] eqn:EQ.
  - exists p, (new_sum n), (dconst ts (mkRat 0 1)), []. split; auto. split; [rewrite DF; reflexivity|]. split; [split; [reflexivity|]; split; auto|].
    intros h h0 H0. rewrite <- (SUM h h0 H0), <- DS. reflexivity.
  - rewrite <- EQ in *. destruct (trie_exact n (dforms k ts) Hn) as (m & out & F1 & F2 & F3 & F4 & F5 & _).
    { eapply Forall_impl; [|exact DG]. cbv beta. tauto. }
    { exists q. split; [rewrite EQ; now left|]. rewrite EQ in DG. apply (Forall_inv DG). }
    pose proof (insert_all_store _ _ _ F1) as [MV MT].
    exists p, m, (dconst ts (mkRat 0 1)), out. split; auto. split; [rewrite DF, F1; reflexivity|]. split.
    + split; [exact MV|]. split; auto. split.
      * right. split; [|split; auto].
        2:{ intros ->. rewrite EQ in DG. destruct (Forall_inv DG) as (_ & _ & _ & _ & B). apply B. transitivity (coefficient (dforms k ts) (snd (fst q)) (snd q)); [|rewrite <- (F5 (snd (fst q)) (snd q)); reflexivity].
            pose (o := map (fun p : rat * Z * list Z => mkTerm (fst (fst p)) (snd p) (snd (fst p))) (dforms k ts)).
            assert (TO : map triple o = dforms k ts) by (unfold o; rewrite map_map; unfold triple; cbn [t_coef t_exps t_deg]; rewrite <- (map_id (dforms k ts)) at 2; apply map_ext; intros [[? ?] ?]; reflexivity).
            rewrite <- TO. symmetry. apply coefficient_nodup.
            - unfold o, TrieProofs.keys. rewrite map_map. cbn [t_exps t_deg]. unfold dforms. rewrite map_map. cbn [dform fst snd]. clear - E3. induction ts as [|t ts IH]; cbn [filter map] in *; [constructor|]. apply NoDup_cons_iff in E3 as [N1 N2]. destruct (t_deg t =? 0); cbn [negb map]; auto. constructor; auto.
              intros H. apply N1. apply in_map_iff in H as (u & E & Hu). apply in_map_iff. exists u. split; auto. now apply filter_In in Hu.
            - unfold o. rewrite EQ. cbn [map]. now left. }
        rewrite MT. cbn [ms_terms new_sum]. rewrite EQ. unfold TrieProofs.nonzero. cbn [filter]. rewrite EQ in DG. destruct (Forall_inv DG) as (A & _ & _ & _ & B).
        destruct (rat_zero (fst (fst q))) eqn:Z0; [apply rat_zero_ok in Z0; auto; contradiction|]. cbn. lia.
      * assert (DG' : Forall (fun p => lowest_terms (fst (fst p)) /\ length (snd p) = n) (dforms k ts)) by (eapply Forall_impl; [|exact DG]; cbv beta; tauto).
        pose proof (in_terms n _ m out Hn DG' F3 F4 F5 F2) as IT2. eapply Forall_impl; [|exact IT2]. cbv beta. intros t (A & B & r & Hr & R1 & R2). rewrite Forall_forall in DG. specialize (DG r Hr). rewrite R1, R2 in DG. unfold form_ok. tauto.
    + intros h h0 H0. rewrite <- (SUM h h0 H0), <- DS. apply Qplus_comp; [reflexivity|].
      rewrite <- (wsum_eq (fun d e => inject_Z k ^ d * h d e)%Q _ (map triple out) (dforms k ts) (le_n _) F5). unfold wsum. rewrite qsum_map. reflexivity.
Qed.
