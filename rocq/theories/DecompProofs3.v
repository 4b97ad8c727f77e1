From Coq Require Import QArith Qfield Qpower Permutation Morphisms.
From Verif Require Import Common Rational RationalSpec RationalProofs Trie TrieSpec TrieProofs TrieProofs2 Integ IntegSpec IntegMath IntegProofs IntegProofs3 IntegProofs4 DecompProofs DecompProofs2.
Open Scope Z_scope.

Notation item := (rat * Z * list Z)%type.
Definition ins_all (l : list item) (m : msum rat) := insert_all rat_add rat_zero l m.
Lemma ins_all_app l r m : ins_all (l ++ r) m = bind (ins_all l m) (ins_all r).
Proof.
  unfold ins_all, insert_all. revert m. induction l as [|a l IH]; intros m; cbn [app fold_out bind]; [reflexivity|].
  destruct (insert_form rat_add rat_zero m (fst (fst a)) (snd (fst a)) (snd a)); cbn [bind]; auto.
Qed.
(** c * <l,x>^d / d! *)
Definition form_value (x : list Q) (f : item) : Q :=
  (value (fst (fst f)) * (qdot (snd f) x ^ snd (fst f) / inject_Z (zfact (Z.to_nat (snd (fst f))))))%Q.
Definition item_of (M : list nat) (coef : rat) (q : list nat) : item :=
  let f := form_of (st_of M q) (Z.of_nat (total M)) coef in (fst f, Z.of_nat (total M), snd f).
Lemma loop_items M coef : forall l p m, chain M p l ->
  decompose_loop (length l) (zs M) (st_of M p) (Z.of_nat (total M)) coef m = ins_all (map (item_of M coef) l) m.
Proof.
  induction l as [|q l IH]; intros p m C; cbn [length decompose_loop map]; [reflexivity|].
  destruct C as [A C]. unfold adv in A. rewrite A. cbn [bind]. unfold ins_all, insert_all. cbn [fold_out].
  change (fst (fst (item_of M coef q))) with (fst (form_of (st_of M q) (Z.of_nat (total M)) coef)).
  change (snd (fst (item_of M coef q))) with (Z.of_nat (total M)).
  change (snd (item_of M coef q)) with (snd (form_of (st_of M q) (Z.of_nat (total M)) coef)).
  destruct (insert_form rat_add rat_zero m _ _ _); cbn [bind]; auto.
Qed.
Lemma total_0 M : total M = O -> Forall (fun m => m = O) M.
Proof. induction M as [|m Ms IH]; cbn [total fold_right]; constructor; [lia|]. apply IH. unfold total. lia. Qed.
Lemma enum_0 M : Forall (fun m => m = O) M -> enum M = [map (fun _ => O) M].
Proof. induction 1 as [|m Ms H F IH]; [reflexivity|]. subst m. cbn [enum]. rewrite IH. reflexivity. Qed.
Lemma mono_0 M : Forall (fun m => m = O) M -> forall x, (qmono (zs M) x == 1)%Q.
Proof. induction 1 as [|m Ms H F IH]; intros [|y x]; cbn [zs map qmono]; try reflexivity. subst m. fold (zs Ms). rewrite IH. cbn. ring. Qed.
Lemma qpow_0 (q : Q) : (q ^ 0 == 1)%Q. Proof. reflexivity. Qed.
Lemma qdot_zero {A} (M : list A) : forall x, (qdot (map (fun _ => 0%Z) M) x == 0)%Q.
Proof. induction M as [|m M IH]; intros [|y x]; cbn [map qdot]; try reflexivity. rewrite IH. change (inject_Z 0) with 0%Q. ring. Qed.

Definition good_items (n : nat) (l : list item) := Forall (fun p => lowest_terms (fst (fst p)) /\ length (snd p) = n /\ 0 <= snd (fst p)) l.
Lemma decompose_term_items M coef : lowest_terms coef -> ~ (value coef == 0)%Q ->
  exists F, (forall m, decompose_term coef (zs M) m = ins_all F m) /\ good_items (length M) F /\ F <> [] /\
    Forall (fun p => snd (fst p) = Z.of_nat (total M) /\ ~ (value (fst (fst p)) == 0)%Q) F /\
    forall x, length x = length M -> (qsum (form_value x) F == value coef * qmono (zs M) x)%Q.
Proof.
  intros LC NZ. destruct (enum_chain M) as (l & E & C & FN). pose proof (enum_length M) as EL. rewrite E in EL. cbn [length] in EL.
  destruct (Nat.eq_dec (total M) 0) as [T0|T0].
  - apply total_0 in T0. pose proof (enum_0 M T0) as E0. rewrite E in E0. injection E0 as E0. subst l.
    exists [(coef, 0, map (fun _ => 0) (zs M))]. assert (ET : total M = O) by (clear - T0; induction T0 as [|m0 M0 H0 F0 IH0]; cbn [total fold_right]; [reflexivity|]; unfold total in IH0; lia). split; [|split; [|split; [|split]]].
    + intros m. unfold decompose_term. rewrite <- EL. change (Z.of_nat (S (length (@nil (list nat)))) - 1 =? 0) with true. cbv iota.
      unfold ins_all, insert_all. cbn [fold_out fst snd]. destruct (insert_form rat_add rat_zero m coef 0 _); reflexivity.
    + constructor; [|constructor]. cbn [fst snd]. split; auto. split; [unfold zs; now rewrite !map_length|lia].
    + discriminate.
    + constructor; [|constructor]. cbn [fst snd]. split; auto. lia.
    + intros x L. cbn [qsum]. unfold form_value. cbn [fst snd]. rewrite (mono_0 M T0), qpow_0. change (zfact (Z.to_nat 0)) with 1. change (inject_Z 1) with 1%Q. field.
  - assert (LN : l <> []).
    { intros ->. apply T0. assert (H : In M (enum M)).
      { clear. induction M as [|m Ms IH]; cbn [enum]; [now left|]. apply in_flat_map. exists Ms. split; auto. apply in_map_iff. exists m. split; auto. apply in_seq. lia. }
      rewrite E in H. destruct H as [H|[]]. rewrite <- H. clear. induction M; cbn; auto. }
    exists (map (item_of M coef) l).
    assert (BD : Forall (fun q => Forall2 (fun m c => (c <= m)%nat) M q) l).
    { apply Forall_forall. intros q Hq. apply enum_bounds. rewrite E. now right. }
    assert (FI : Forall (fun q => lowest_terms (fst (fst (item_of M coef q))) /\ length (snd (item_of M coef q)) = length M /\ ~ (value (fst (fst (item_of M coef q))) == 0)%Q /\
       forall x, (form_value x (item_of M coef q) == value coef * (inject_Z (wts M q) * qdot (zs q) x ^ Z.of_nat (total M)) / inject_Z (zfact (total M)))%Q) l).
    { apply Forall_forall. intros q Hq. rewrite Forall_forall in BD, FN. destruct (form_of_ok M q coef (BD q Hq) (FN q Hq) LC) as (A1 & A2 & A3 & A4).
      split; [exact A1|]. split; [exact A2|]. split; [now apply A3|]. intros x. unfold form_value, item_of. cbn [fst snd]. rewrite Nat2Z.id. rewrite <- A4.
      field. apply injz_nz. pose proof (zfact_pos (total M)). lia. }
    split; [|split; [|split; [|split]]].
    + intros m. unfold decompose_term. rewrite <- EL. destruct (Z.eqb_spec (Z.of_nat (S (length l)) - 1) 0) as [Z0|_]; [destruct l; [congruence|cbn [length] in Z0; lia]|].
      rewrite fold_add_total, Z.add_0_l. replace (Z.to_nat (Z.of_nat (S (length l)) - 1)) with (length l) by lia.
      replace (map (fun _ => (0, 1)) (zs M)) with (st_of M (map (fun _ => O) M)); [now apply loop_items|].
      clear. induction M as [|m M IH]; [reflexivity|]. cbn [map st_of zs]. rewrite binom_0. f_equal. exact IH.
    + unfold good_items. apply Forall_map. eapply Forall_impl; [|exact FI]. intros q (A1 & A2 & _ & _). split; auto. split; auto. cbn [item_of fst snd]. lia.
    + destruct l; [congruence|discriminate].
    + apply Forall_map. eapply Forall_impl; [|exact FI]. intros q (_ & _ & A3 & _). split; auto.
    + intros x L. rewrite qsum_map. rewrite Forall_forall in FI.
      rewrite (qsum_ext _ (fun q => (value coef / inject_Z (zfact (total M))) * (inject_Z (wts M q) * qdot (zs q) x ^ Z.of_nat (total M)))%Q).
      2:{ intros q Hq. destruct (FI q Hq) as (_ & _ & _ & A4). rewrite A4. field. apply injz_nz. pose proof (zfact_pos (total M)). lia. }
      rewrite qsum_scale. pose proof (polarization M x ltac:(lia)) as P. rewrite E in P. cbn [qsum] in P.
      assert (P0 : (qdot (zs (map (fun _ => O) M)) x ^ Z.of_nat (total M) == 0)%Q).
      { replace (zs (map (fun _ => O) M)) with (map (fun _ => 0) M) by (unfold zs; now rewrite map_map). rewrite qdot_zero. apply Qpower_0. lia. }
      rewrite P0, Qmult_0_r, Qplus_0_l in P. rewrite P. field. apply injz_nz. pose proof (zfact_pos (total M)). lia.
Qed.

(** ** Polynomials: all the terms *)
Definition nat_exps (e : list Z) : Prop := Forall (fun a => 0 <= a) e.
Lemma nat_exps_zs e : nat_exps e -> exists M, e = zs M.
Proof.
  intros H. exists (map Z.to_nat e). unfold zs. rewrite map_map. induction H as [|a e Ha He IH]; cbn [map]; [reflexivity|]. rewrite <- IH. now rewrite Z2Nat.id by auto.
Qed.
Definition term_value (x : list Q) (t : bterm rat) : Q := (value (t_coef t) * qmono (t_exps t) x)%Q.
Definition zdeg (e : list Z) : Z := fold_right Z.add 0 e.
Lemma zdeg_total M : zdeg (zs M) = Z.of_nat (total M).
Proof. induction M as [|m M IH]; cbn [zs map zdeg fold_right total]; [reflexivity|]. fold (zs M) (zdeg (zs M)) (total M). lia. Qed.
Lemma decompose_items n : forall ts, Forall (fun t => lowest_terms (t_coef t) /\ ~ (value (t_coef t) == 0)%Q /\ nat_exps (t_exps t) /\ length (t_exps t) = n) ts ->
  exists F, (forall m, decompose_terms ts m = ins_all F m) /\ good_items n F /\ (ts <> [] -> F <> []) /\
    Forall (fun p => ~ (value (fst (fst p)) == 0)%Q /\ exists t, In t ts /\ snd (fst p) = zdeg (t_exps t)) F /\
    forall x, length x = n -> (qsum (form_value x) F == qsum (term_value x) ts)%Q.
Proof.
  induction ts as [|t ts IH]; intros H.
  - exists []. split; [reflexivity|]. split; [constructor|]. split; [tauto|]. split; [constructor|]. reflexivity.
  - pose proof (Forall_inv H) as (A1 & A2 & A3 & A4). destruct (IH (Forall_inv_tail H)) as (F & F1 & F2 & F3 & F4 & F5).
    destruct (nat_exps_zs _ A3) as [M EM]. destruct (decompose_term_items M (t_coef t) A1 A2) as (G & G1 & G2 & G3 & G4 & G5).
    assert (LM : length M = n) by (rewrite <- A4, EM; unfold zs; now rewrite map_length).
    exists (G ++ F). split; [|split; [|split; [|split]]].
    + intros m. cbn [decompose_terms]. rewrite EM, G1, ins_all_app. destruct (ins_all G m); cbn [bind]; auto.
    + apply Forall_app. split; auto. now rewrite LM in G2.
    + intros _ E. destruct G; [congruence|discriminate].
    + apply Forall_app. split; (eapply Forall_impl; [|eassumption]); cbv beta.
      * intros p [B1 B2]. split; auto. exists t. split; [now left|]. rewrite EM, zdeg_total. exact B1.
      * intros p [B1 (t' & B2 & B3)]. split; auto. exists t'. split; [now right|auto].
    + intros x L. rewrite qsum_app. cbn [qsum]. rewrite G5 by lia. rewrite F5 by auto. unfold term_value at 2. rewrite EM. reflexivity.
Qed.

(** ** Equal coefficients, equal sums *)
Definition wsum (h : Z -> list Z -> Q) (l : list item) : Q := qsum (fun p => (value (fst (fst p)) * h (snd (fst p)) (snd p))%Q) l.
Definition keyb (d : Z) (x : list Z) (p : item) : bool := (snd (fst p) =? d) && same_exps (snd p) x.
Lemma coefficient_filter l d x d' x' : (coefficient (filter (fun p => negb (keyb d x p)) l) d' x' == if (d =? d') && same_exps x x' then 0 else coefficient l d' x')%Q.
Proof.
  induction l as [|p l IH]; cbn [filter coefficient].
  - destruct ((d =? d') && same_exps x x'); reflexivity.
  - unfold keyb at 1. destruct ((snd (fst p) =? d) && same_exps (snd p) x) eqn:K; cbn [negb].
    + apply andb_true_iff in K as [K1 K2]. apply Z.eqb_eq in K1. apply same_exps_spec in K2. rewrite K1, K2, IH. destruct ((d =? d') && same_exps x x'); [reflexivity|ring].
    + cbn [coefficient]. rewrite IH. destruct ((d =? d') && same_exps x x') eqn:K'.
      * apply andb_true_iff in K' as [K1 K2]. apply Z.eqb_eq in K1. apply same_exps_spec in K2. subst. rewrite K. ring.
      * reflexivity.
Qed.
Lemma wsum_filter h l d x : (wsum h l == coefficient l d x * h d x + wsum h (filter (fun p => negb (keyb d x p)) l))%Q.
Proof.
  unfold wsum. induction l as [|p l IH]; cbn [filter coefficient qsum]; [ring|]. unfold keyb at 1.
  destruct ((snd (fst p) =? d) && same_exps (snd p) x) eqn:K; cbn [negb qsum]; rewrite IH; [|ring].
  apply andb_true_iff in K as [K1 K2]. apply Z.eqb_eq in K1. apply same_exps_spec in K2. rewrite K1, K2. ring.
Qed.
Lemma filter_le {A} (f : A -> bool) l : (length (filter f l) <= length l)%nat.
Proof. induction l as [|a l IH]; cbn; [lia|]. destruct (f a); cbn; lia. Qed.
Lemma wsum_eq h : forall k l r, (length l + length r <= k)%nat -> (forall d x, (coefficient l d x == coefficient r d x)%Q) -> (wsum h l == wsum h r)%Q.
Proof.
  induction k as [|k IH]; intros l r L E.
  - destruct l, r; cbn in L; try lia. reflexivity.
  - assert (S : forall d x, (length (filter (fun p => negb (keyb d x p)) l) + length (filter (fun p => negb (keyb d x p)) r) <= k)%nat -> (wsum h l == wsum h r)%Q).
    { intros d x L'. rewrite (wsum_filter h l d x), (wsum_filter h r d x), E. rewrite (IH _ _ L'); [reflexivity|].
      intros d' x'. rewrite !coefficient_filter. destruct ((d =? d') && same_exps x x'); [reflexivity|apply E]. }
    assert (KR : forall p, keyb (snd (fst p)) (snd p) p = true) by (intros p; unfold keyb; rewrite Z.eqb_refl; cbn; now apply same_exps_spec).
    destruct l as [|p l].
    + destruct r as [|p r]; [reflexivity|]. apply (S (snd (fst p)) (snd p)). cbn [filter length] in *. rewrite KR. cbn [negb].
      pose proof (filter_le (fun p0 => negb (keyb (snd (fst p)) (snd p) p0)) r). lia.
    + apply (S (snd (fst p)) (snd p)). cbn [filter length] in *. rewrite KR. cbn [negb].
      pose proof (filter_le (fun p0 => negb (keyb (snd (fst p)) (snd p) p0)) l). pose proof (filter_le (fun p0 => negb (keyb (snd (fst p)) (snd p) p0)) r). lia.
Qed.
