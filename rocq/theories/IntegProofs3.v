From Coq Require Import QArith Qfield Permutation.
From Verif Require Import Common Rational RationalSpec RationalProofs Trie TrieSpec TrieProofs TrieProofs2 Integ IntegSpec IntegMath IntegProofs IntegProofs2.
Open Scope Z_scope.

Lemma lowest_int z : lowest_terms (mkRat z 1).
Proof. split; cbn; [lia|]. apply Z.gcd_1_r. Qed.
Lemma new_grel : grel 1 (new_sum 1) (sp 0 (fun _ => 0%Q)).
Proof. split; [reflexivity|]. left. split; [reflexivity|]. split; [now left|]. apply peq_refl. Qed.
Lemma grel_trie m K A : grel 1 m (sp (S K) A) -> ~ (A O == 0)%Q -> exists t, ms_trie m = Some t /\ trie_poly 1 t (sp (S K) A).
Proof.
  intros (_ & [(_ & _ & P)|(_ & t & E & T)]) H; [|exists t; auto].
  exfalso. apply H. specialize (P [0]). rewrite coef_sp in P. destruct (Z.ltb_spec 0 (Z.of_nat (S K))); [|lia]. exact P.
Qed.

Lemma numer_series_ok e p A : (forall j, (j <= e)%nat -> (A j == inject_Z (binom e j * p ^ Z.of_nat (e - j)))%Q) -> Z.of_nat e < 2 ^ 20 ->
  forall n i m, grel 1 m (sp i A) -> (i + n <= S e)%nat ->
  exists m', numer_series n (Z.of_nat i) (Z.of_nat e) p m = Ok m' /\ grel 1 m' (sp (i + n) A).
Proof.
  intros HA He. induction n as [|n IH]; intros i m G Hn; cbn [numer_series].
  - exists m. rewrite Nat.add_0_r. auto.
  - rewrite power_ZZ_ok by lia. cbn [bind]. rewrite choose_ok.
    destruct (gms_insert_ok 1 m (sp i A) (mkRat (binom e i * p ^ (Z.of_nat e - Z.of_nat i)) 1) [Z.of_nat i]) as (m1 & E & G1); auto.
    { apply lowest_int. }
    rewrite E. cbn [bind]. replace (Z.of_nat i + 1) with (Z.of_nat (S i)) by lia.
    destruct (IH (S i) m1) as (m' & E' & G').
    + destruct G1 as [V G1]. split; auto.
      assert (PE : peq (padd (sp i A) [(value (mkRat (binom e i * p ^ (Z.of_nat e - Z.of_nat i)) 1), [Z.of_nat i])]) (sp (S i) A)).
      { rewrite sp_S. apply padd_peq; [apply peq_refl|]. intros x. cbn [coef fst snd]. destruct (same_exps [Z.of_nat i] x); [|reflexivity].
        rewrite (HA i) by lia. rewrite Nat2Z.inj_sub by lia. reflexivity. }
      destruct G1 as [(Z0 & O & P)|(Z0 & t & Et & T)]; [left|right].
      * split; auto. split; auto. eapply peq_trans; [apply peq_sym, PE|exact P].
      * split; auto. exists t. split; auto. eapply trie_poly_peq; eauto.
    + lia.
    + exists m'. split; auto. replace (i + S n)%nat with (S i + n)%nat by lia. exact G'.
Qed.

Lemma denom_series_ok c (k : nat) x K B : Z.of_nat K < 2 ^ 20 -> c = Z.of_nat (S k) ->
  (forall j, (j <= K)%nat -> (B j == inject_Z ((-1) ^ Z.of_nat j * (binom (k + j) j * x ^ Z.of_nat (K - j))))%Q) ->
  forall n i m, grel 1 m (sp i B) -> (i + n <= S K)%nat ->
  exists m', denom_series n (Z.of_nat i) c (Z.of_nat K) x m = Ok m' /\ grel 1 m' (sp (i + n) B).
Proof.
  intros HK -> HB. induction n as [|n IH]; intros i m G Hn; cbn [denom_series].
  - exists m. rewrite Nat.add_0_r. auto.
  - rewrite power_ZZ_ok by lia. cbn [bind num den]. cbv zeta.
    replace (Z.of_nat (S k) + Z.of_nat i - 1) with (Z.of_nat (k + i)) by lia. rewrite choose_ok.
    set (z := binom (k + i) i * x ^ (Z.of_nat K - Z.of_nat i)).
    set (r := if Z.of_nat i mod 2 =? 1 then canonicalize (mkRat (z * -1) (1 * 1)) else mkRat z 1).
    assert (HR : lowest_terms r /\ (value r == inject_Z ((-1) ^ Z.of_nat i * z))%Q).
    { subst r. destruct (Z.eqb_spec (Z.of_nat i mod 2) 1) as [E|E].
      - destruct (canonicalize_correct (z * -1) (1 * 1) ltac:(lia)) as [H1 H2]. split; auto.
        rewrite H2. replace ((-1) ^ Z.of_nat i) with (-1).
        + change (1 * 1) with 1. rewrite (Z.mul_comm (-1) z). change (inject_Z 1) with 1%Q. field.
        + rewrite (Z.div_mod (Z.of_nat i) 2), E by lia. rewrite Z.pow_add_r, Z.pow_mul_r by (try apply Z.mul_nonneg_nonneg; try apply Z.div_pos; lia).
          change ((-1)^2) with 1. rewrite Z.pow_1_l by (apply Z.div_pos; lia). reflexivity.
      - split; [apply lowest_int|]. replace ((-1) ^ Z.of_nat i) with 1; [rewrite Z.mul_1_l; reflexivity|].
        pose proof (Z.mod_pos_bound (Z.of_nat i) 2 ltac:(lia)). rewrite (Z.div_mod (Z.of_nat i) 2) by lia. replace (Z.of_nat i mod 2) with 0 by lia.
        rewrite Z.add_0_r, Z.pow_mul_r by (try apply Z.div_pos; lia). change ((-1)^2) with 1. rewrite Z.pow_1_l by (apply Z.div_pos; lia). reflexivity. }
    destruct HR as [HR1 HR2].
    destruct (gms_insert_ok 1 m (sp i B) r [Z.of_nat i]) as (m1 & E & G1); auto.
    rewrite E. cbn [bind]. replace (Z.of_nat i + 1) with (Z.of_nat (S i)) by lia.
    destruct (IH (S i) m1) as (m' & E' & G').
    + destruct G1 as [V G1]. split; auto.
      assert (PE : peq (padd (sp i B) [(value r, [Z.of_nat i])]) (sp (S i) B)).
      { rewrite sp_S. apply padd_peq; [apply peq_refl|]. intros y. cbn [coef fst snd]. destruct (same_exps [Z.of_nat i] y); [|reflexivity].
        rewrite HR2, (HB i) by lia. subst z. rewrite Nat2Z.inj_sub by lia. reflexivity. }
      destruct G1 as [(Z0 & O & P)|(Z0 & t & Et & T)]; [left|right].
      * split; auto. split; auto. eapply peq_trans; [apply peq_sym, PE|exact P].
      * split; auto. exists t. split; auto. eapply trie_poly_peq; eauto.
    + lia.
    + exists m'. split; auto. replace (i + S n)%nat with (S i + n)%nat by lia. exact G'.
Qed.

(** residue_den *)
Fixpoint den_prod (c0 : Z) (l : list (Z * Z)) : Z := match l with [] => 1 | (x, n) :: l' => x ^ (n + c0) * den_prod c0 l' end.
Lemma residue_den_ok c0 : 0 <= c0 -> forall l de, Forall (fun p => 0 < snd p /\ snd p + c0 < 2 ^ 20) l ->
  residue_den c0 l de = Ok (de * den_prod c0 l).
Proof.
  intros H0. induction l as [|[x n] l IH]; intros de H; cbn [residue_den den_prod]; [f_equal; lia|].
  pose proof (Forall_inv H) as [P1 P2]. cbn in P1, P2. rewrite power_ZZ_ok by lia. cbn [bind].
  rewrite IH by exact (Forall_inv_tail H). f_equal. ring.
Qed.
Lemma den_prod_nz c0 l : 0 <= c0 -> Forall (fun p => fst p <> 0 /\ 0 < snd p) l -> den_prod c0 l <> 0.
Proof.
  intros H0. induction 1 as [|[x n] l [P1 P2] HL IH]; cbn [den_prod]; [lia|]. cbn in P1, P2. apply Z.neq_mul_0. split; auto. apply Z.pow_nonzero; lia.
Qed.

(** scaling *)
Lemma divs_scale l F k : Forall (fun c => c <> 0) l -> divs l (fun j => k * F j)%Q ≡ (fun j => k * divs l F j)%Q.
Proof.
  unfold divs. induction 1 as [|x l Hx Hl IH]; cbn [fold_right]; [apply seq_refl|].
  eapply seq_trans; [apply divlin_ext, IH|]. intros j; induction j as [|m IHm]; cbn [divlin]; [|rewrite IHm]; field; now apply injz_nz.
Qed.
Lemma divs_app l1 l2 F : divs (l1 ++ l2) F = divs l1 (divs l2 F).
Proof. unfold divs. apply fold_right_app. Qed.
Lemma divs_repeat c n F : divs (repeat c n) F = iter n (divlin (inject_Z c)) F.
Proof. induction n as [|n IH]; cbn [repeat iter]; [reflexivity|]. rewrite <- IH. reflexivity. Qed.
Lemma expand_nz l : Forall (fun p => fst p <> 0) l -> Forall (fun c => c <> 0) (expand l).
Proof.
  intros H. apply Forall_forall. intros c Hc. unfold expand in Hc. apply in_flat_map in Hc as (p & Hp & Hc). apply repeat_spec in Hc. subst c.
  rewrite Forall_forall in H. now apply H.
Qed.
Lemma divs_at0 l F : Forall (fun c => c <> 0) l -> ~ (F O == 0)%Q -> ~ (divs l F O == 0)%Q.
Proof.
  induction 1 as [|x l Hx HL IH]; intros HF; [exact HF|]. unfold divs. cbn [fold_right divlin]. fold (divs l F). intros E. apply (IH HF).
  assert (divs l F O == (divs l F O / inject_Z x) * inject_Z x)%Q as -> by (field; now apply injz_nz). rewrite E. ring.
Qed.

(** The buffer that holds the current product before step [i]. *)
Definition cur (i : nat) {A} (m1 sub : option A) := if Nat.odd i then m1 else sub.
Lemma residue_loop_ok K : Z.of_nat K < 2 ^ 20 -> forall l i m1 sub t A,
  Forall (fun p => fst p <> 0 /\ 0 < snd p) l -> cur i m1 sub = Some t -> trie_poly 1 t (sp (S K) A) -> ~ (A O == 0)%Q ->
  exists m1' sub' t' A', residue_loop l i (Z.of_nat K) m1 sub = Ok (m1', sub') /\ cur (i + length l) m1' sub' = Some t' /\
    trie_poly 1 t' (sp (S K) A') /\ A' ≡ (fun j => inject_Z (den_prod (Z.of_nat K) l) * divs (expand l) A j)%Q.
Proof.
  intros HK. induction l as [|[x c] l IH]; intros i m1 sub t A HL HC HT HA.
  - exists m1, sub, t, A. cbn [residue_loop length den_prod]. rewrite Nat.add_0_r. split; auto. split; auto. split; auto.
    intros j. cbn [expand flat_map divs fold_right]. ring.
  - pose proof (Forall_inv HL) as [X1 X2]. cbn [fst snd] in X1, X2. cbn [residue_loop].
    destruct (Z_of_nat_complete (c - 1)) as [k Hk]; [lia|].
    set (B := fun j => (inject_Z (x ^ Z.of_nat (S k + K)) * IntegMath.iter (S k) (divlin (inject_Z x)) one j)%Q).
    assert (HB0 : ~ (B O == 0)%Q).
    { subst B. cbv beta. rewrite scaled_closed by (auto; lia). rewrite binom_0. apply injz_nz. rewrite Nat.sub_0_r. change ((-1) ^ Z.of_nat 0) with 1. rewrite !Z.mul_1_l. apply Z.pow_nonzero; lia. }
    destruct (denom_series_ok c k x K B HK ltac:(lia)) with (n := S K) (i := O) (m := @new_sum rat 1) as (m2 & E2 & G2).
    { intros j Hj. subst B. cbv beta. now apply scaled_closed. }
    { exact new_grel. }
    { lia. }
    rewrite Nat2Z.id. change (Z.of_nat 0) with 0 in E2. rewrite E2. cbn [bind].
    destruct (grel_trie m2 K B G2 HB0) as (t2 & Et2 & T2). rewrite Et2. cbn [deref bind].
    destruct (trie_multiply_sp K t t2 A B HT T2 HA HB0) as (t3 & E3 & T3).
    assert (CONV : conv A B ≡ (fun j => inject_Z (x ^ Z.of_nat (S k + K)) * IntegMath.iter (S k) (divlin (inject_Z x)) A j)%Q).
    { intros j. rewrite <- (conv_iter (inject_Z x) (S k) A (injz_nz x X1) j). unfold conv, B. rewrite <- qn_scale. apply qn_ext. intros i0 _. ring. }
    assert (HA' : ~ (conv A B O == 0)%Q).
    { unfold conv. cbn [qn Nat.sub]. rewrite Qplus_0_l. intros C. apply Qmult_integral in C. tauto. }
    assert (HCn : forall m1' sub', (if Nat.odd i then m1' = m1 /\ sub' = Some t3 else m1' = Some t3 /\ sub' = sub) -> cur (S i) m1' sub' = Some t3).
    { intros m1' sub' H. unfold cur. rewrite Nat.odd_succ, <- Nat.negb_odd. destruct (Nat.odd i); cbn [negb]; tauto. }
    assert (FIN : forall m1' sub', cur (S i) m1' sub' = Some t3 ->
      exists m1'' sub'' t' A', residue_loop l (S i) (Z.of_nat K) m1' sub' = Ok (m1'', sub'') /\ cur (i + length ((x, c) :: l)) m1'' sub'' = Some t' /\
        trie_poly 1 t' (sp (S K) A') /\ A' ≡ (fun j => inject_Z (den_prod (Z.of_nat K) ((x, c) :: l)) * divs (expand ((x, c) :: l)) A j)%Q).
    { intros m1' sub' HC'. destruct (IH (S i) m1' sub' t3 (conv A B) (Forall_inv_tail HL) HC' T3 HA') as (m1'' & sub'' & t' & A' & F1 & F2 & F3 & F4).
      exists m1'', sub'', t', A'. split; auto. split; [cbn [length]; rewrite Nat.add_succ_r; exact F2|]. split; auto.
      eapply seq_trans; [exact F4|]. intros j. cbn [den_prod expand flat_map fst snd]. fold (expand l).
      replace (Z.to_nat c) with (S k) by lia.
      assert (NZ : Forall (fun c => c <> 0) (expand l)).
      { apply expand_nz. eapply Forall_impl; [|exact (Forall_inv_tail HL)]. cbv beta. tauto. }
      rewrite (divs_ext (expand l) _ _ CONV j), (divs_scale (expand l) _ _ NZ j).
      rewrite <- divs_repeat, <- divs_app.
      rewrite (divs_perm (expand l ++ repeat x (S k)) (repeat x (S k) ++ expand l) A (Permutation_app_comm _ _) ltac:(apply Forall_app; split; [exact NZ|apply Forall_forall; intros y Hy; apply repeat_spec in Hy; congruence]) j).
      rewrite !inject_Z_mult. replace (c + Z.of_nat K) with (Z.of_nat (S k + K)) by lia. ring. }
    destruct (Nat.odd i) eqn:Ei.
    + unfold cur in HC. rewrite Ei in HC. rewrite HC. cbn [deref bind]. rewrite E3. cbn [bind]. rewrite <- HC. apply FIN. apply HCn. auto.
    + unfold cur in HC. rewrite Ei in HC. rewrite HC. cbn [deref bind]. rewrite E3. cbn [bind]. rewrite <- HC. apply FIN. apply HCn. auto.
Qed.

Lemma find_coeff_ok K : forall out, NoDup (map t_exps out) -> Forall (fun tm => lowest_terms (t_coef tm) /\ length (t_exps tm) = 1%nat) out ->
  lowest_terms (find_coeff out K) /\ (value (find_coeff out K) == coef (terms_poly out) [K])%Q.
Proof.
  induction out as [|t out IH]; intros ND HL; cbn [find_coeff].
  - split; [apply lowest_int|reflexivity].
  - pose proof (Forall_inv HL) as [L1 L2]. destruct (t_exps t) as [|e [|]] eqn:Ee; cbn in L2; try discriminate.
    cbn [map] in ND. rewrite Ee in ND. inversion ND as [|? ? N1 N2]; subst. cbn [terms_poly map coef fst snd]. rewrite Ee. cbn [nth same_exps]. rewrite andb_true_r.
    destruct (IH N2 (Forall_inv_tail HL)) as [I1 I2].
    destruct (Z.eqb_spec e K) as [->|Hne].
    + split; auto. fold (terms_poly out).
      assert (Z0 : (coef (terms_poly out) [K] == 0)%Q); [|rewrite Z0; ring].
      clear - N1. induction out as [|u out IH]; [reflexivity|]. cbn [terms_poly map coef fst snd]. cbn [map] in N1.
      destruct (same_exps (t_exps u) [K]) eqn:E; [exfalso; apply N1; left; now apply same_exps_spec|]. fold (terms_poly out). rewrite IH by (intros H; apply N1; now right). ring.
    + split; auto. rewrite I2. fold (terms_poly out). ring.
Qed.

Definition ratio (a b : Z) : Q := (inject_Z a / inject_Z b)%Q.
Lemma reduce_ok a b : b <> 0 -> snd (reduce a b) <> 0 /\ (ratio (fst (reduce a b)) (snd (reduce a b)) == ratio a b)%Q.
Proof.
  intros H. unfold reduce. cbv zeta. assert (G : Z.gcd a b <> 0) by (intros E; apply Z.gcd_eq_0_r in E; auto).
  destruct (Z.eqb_spec (Z.gcd a b) 0); [congruence|]. cbn [negb fst snd].
  destruct (Z.gcd_divide_l a b) as [u Hu]. destruct (Z.gcd_divide_r a b) as [w Hw].
  set (g := Z.gcd a b) in *. assert (Ha : a / g = u) by (rewrite Hu; apply Z.div_mul; auto). assert (Hb : b / g = w) by (rewrite Hw; apply Z.div_mul; auto).
  rewrite Ha, Hb. assert (W : w <> 0) by (intros ->; lia). split; auto. unfold ratio. rewrite Hu, Hw, !inject_Z_mult. field.
  split; now apply injz_nz.
Qed.

Lemma repeat_filter_none (f : Z -> bool) c n : f c = false -> filter f (repeat c n) = [].
Proof. intros H. induction n; cbn; auto. now rewrite H. Qed.
Lemma filter_all {A} (f : A -> bool) l : Forall (fun a => f a = true) l -> filter f l = l.
Proof. induction 1 as [|a l H HL IH]; cbn; auto. now rewrite H, IH. Qed.

(** The tally of the differences, split off its zero entry. *)
Lemma tally_diffs d diffs : In 0 diffs -> (2 <= count_occ Z.eq_dec diffs 0%Z)%nat -> length diffs = S d ->
  exists n0 rest, tally d diffs [(0, 0)] = Ok ((0, n0) :: rest) /\ n0 = Z.of_nat (count_occ Z.eq_dec diffs 0) /\
    Permutation (expand rest) (filter (fun c => negb (c =? 0)) diffs) /\ Forall (fun p => fst p <> 0 /\ 0 < snd p) rest.
Proof.
  intros H0 H2 HL.
  assert (LEN : forall l, (length (filter (fun c => negb (c =? 0)%Z) l) + count_occ Z.eq_dec l 0%Z = length l)%nat).
  { induction l as [|y l IH]; cbn; auto. destruct (Z.eqb_spec y 0), (Z.eq_dec y 0); try congruence; cbn; lia. }
  destruct (tally_ok (fun z => z = 0) d diffs [(0, 0)]) as (l & E & A1 & A2 & A3 & (r & A4)).
  - cbn. repeat constructor; auto.
  - constructor; [|constructor]. split; cbn; [lia|now left].
  - assert (I : incl (nodup Z.eq_dec (diffs ++ map fst [(0, 0)])) (0 :: filter (fun c => negb (c =? 0)) diffs)).
    { intros y Hy. apply nodup_In in Hy. cbn in Hy. apply in_app_iff in Hy. destruct (Z.eq_dec y 0) as [->|Hne]; [now left|].
      right. apply filter_In. split; [destruct Hy as [Hy|[Hy|[]]]; [exact Hy|congruence]|]. now rewrite (proj2 (Z.eqb_neq y 0)). }
    pose proof (NoDup_incl_length (NoDup_nodup Z.eq_dec _) I) as L. cbn [length] in L. specialize (LEN diffs). lia.
  - cbn [map fst app] in A4. destruct l as [|[z n0] rest]; [discriminate|]. cbn [map fst] in A4. injection A4 as -> A4.
    exists n0, rest. split; [exact E|]. cbn [map fst] in A1. inversion A1 as [|? ? N1 N2]; subst.
    assert (RNZ : Forall (fun p => fst p <> 0 /\ 0 < snd p) rest).
    { apply Forall_forall. intros p Hp. assert (fst p <> 0) by (intros C; apply N1; rewrite <- C; now apply in_map).
      split; auto. pose proof (Forall_inv_tail A2) as A2'. rewrite Forall_forall in A2'. destruct (A2' p Hp) as [_ [C|C]]; [congruence|exact C]. }
    assert (ENZ : Forall (fun c => c <> 0) (expand rest)) by (apply expand_nz; eapply Forall_impl; [|exact RNZ]; cbv beta; tauto).
    unfold expand in A3. cbn [flat_map fst snd Z.to_nat repeat app] in A3. fold (expand rest) in A3. rewrite app_nil_r in A3.
    pose proof (Forall_inv A2) as [P0 _]. cbn in P0.
    split; [|split; [|exact RNZ]].
    + pose proof (proj1 (Permutation_count_occ Z.eq_dec _ _) A3 0) as C. rewrite <- C, count_occ_app.
      assert (C1 : forall n, count_occ Z.eq_dec (repeat 0 n) 0 = n) by (induction n as [|n IHn]; cbn; auto).
      rewrite C1. replace (count_occ Z.eq_dec (expand rest) 0) with O; [lia|]. symmetry. apply count_occ_not_In. intros Hin. rewrite Forall_forall in ENZ. now apply (ENZ 0).
    + pose proof (filter_perm (fun c => negb (c =? 0)) _ _ A3) as P. rewrite filter_app, repeat_filter_none in P by reflexivity.
      rewrite (filter_all (fun c => negb (c =? 0)) (expand rest)) in P; [exact P|].
      eapply Forall_impl; [|exact ENZ]. cbv beta. intros c Hc. now rewrite (proj2 (Z.eqb_neq c 0)).
Qed.

Lemma divs_prefix l : Forall (fun c => c <> 0) l -> forall F K, (forall j, (j <= K)%nat -> (F j == 0)%Q) -> (divs l F K == 0)%Q.
Proof.
  unfold divs. induction 1 as [|x l Hx HL IH]; intros F K H; cbn [fold_right]; [apply H; lia|].
  assert (G : forall j, (j <= K)%nat -> (fold_right (fun c G => divlin (inject_Z c) G) F l j == 0)%Q).
  { intros j Hj. apply IH. intros i Hi. apply H. lia. }
  clear H. induction K as [|K IHK]; cbn [divlin].
  - rewrite (G O) by lia. field. now apply injz_nz.
  - rewrite (G (S K)) by lia. rewrite IHK by (intros; apply G; lia). field. now apply injz_nz.
Qed.

(** computeResidue at a value [x] that occurs at least twice among the [d+1] values. *)
Lemma compute_residue_ok d m xs x : In x xs -> (2 <= count_occ Z.eq_dec xs x)%nat -> length xs = S d -> Z.of_nat (m + d) < 2 ^ 20 - 1 ->
  ~ (m = O /\ Forall (fun y => y = 0) xs) ->
  exists a b, compute_residue (Z.of_nat d) (Z.of_nat m) (map (fun y => x - y) xs) x = Ok (a, b) /\ b <> 0 /\
    (ratio a b == res x xs (powlin x (m + d)))%Q.
Proof.
  intros Hin H2 HL HS HX.
  assert (D0 : d <> O).
  { intros ->. pose proof (count_occ_bound Z.eq_dec x xs). lia. }
  assert (CNT : forall l, count_occ Z.eq_dec (map (fun y => x - y) l) 0 = count_occ Z.eq_dec l x).
  { induction l as [|y l IH]; cbn [map count_occ]; auto. destruct (Z.eq_dec (x - y) 0), (Z.eq_dec y x); try lia. }
  assert (FIL : forall l, filter (fun c => negb (c =? 0)) (map (fun y => x - y) l) = map (fun b => x - b) (others x l)).
  { unfold others. induction l as [|y l IH]; cbn [map filter]; auto.
    destruct (Z.eqb_spec (x - y) 0), (Z.eqb_spec y x); try lia; cbn [negb map]; [exact IH|now f_equal]. }
  unfold compute_residue. destruct (Z.eqb_spec x 0) as [->|Hx].
  - exists 0, 1. split; auto. split; [lia|]. unfold res.
    rewrite (divs_prefix _ (others_nz 0 xs)); [reflexivity|].
    intros j Hj. rewrite powlin_closed. assert (LT : (j < m + d)%nat).
    { destruct (Nat.eq_dec (count_occ Z.eq_dec xs 0) (S d)) as [E|E].
      - destruct m as [|m]; [|lia]. exfalso. apply HX. split; auto. rewrite <- HL in E. clear - E. induction xs as [|y xs IH]; constructor.
        + cbn in E. destruct (Z.eq_dec y 0); auto. pose proof (count_occ_bound Z.eq_dec 0 xs). lia.
        + apply IH. cbn in E. destruct (Z.eq_dec y 0); [lia|]. pose proof (count_occ_bound Z.eq_dec 0 xs). lia.
      - pose proof (count_occ_bound Z.eq_dec 0 xs). lia. }
    rewrite Z.pow_0_l by lia. rewrite Z.mul_0_r. reflexivity.
  - destruct (Z.eqb_spec (Z.of_nat d) 0); [lia|]. rewrite Nat2Z.id.
    destruct (tally_diffs d (map (fun y => x - y) xs)) as (n0 & rest & E & N0 & P & R).
    { apply in_map_iff. exists x. split; [lia|auto]. }
    { rewrite CNT. exact H2. }
    { rewrite map_length. exact HL. }
    rewrite E. cbn [bind]. cbv zeta. rewrite CNT in N0. rewrite FIL in P.
    set (k := count_occ Z.eq_dec xs x) in *. pose proof (count_occ_bound Z.eq_dec x xs) as CB. fold k in CB.
    replace (n0 - 1) with (Z.of_nat (k - 1)) by lia. set (K := (k - 1)%nat) in *.
    assert (SZ : Forall (fun p => 0 < snd p /\ snd p + Z.of_nat K < 2 ^ 20) rest).
    { apply Forall_forall. intros p Hp. rewrite Forall_forall in R. destruct (R p Hp) as [_ R2]. split; auto.
      assert (L1 : (Z.to_nat (snd p) <= length (expand rest))%nat).
      { apply in_split in Hp as (r1 & r2 & ->). unfold expand. rewrite flat_map_app, app_length. cbn [flat_map]. rewrite app_length, repeat_length. lia. }
      rewrite (Permutation_length P), map_length in L1.
      assert (L2 : (length (others x xs) + k = length xs)%nat).
      { subst k. clear. unfold others. induction xs as [|y xs IH]; cbn; auto. destruct (Z.eqb_spec y x), (Z.eq_dec y x); try congruence; cbn; lia. }
      lia. }
    rewrite residue_den_ok by (auto; lia). cbn [bind].
    replace (Z.to_nat (Z.of_nat K + 1)) with (S K) by lia.
    replace (Z.of_nat m + Z.of_nat d) with (Z.of_nat (m + d)) by lia.
    destruct (numer_series_ok (m + d) x (powlin x (m + d))) with (n := S K) (i := O) (m := @new_sum rat 1) as (m1 & E1 & G1).
    { intros j _. apply powlin_closed. }
    { lia. }
    { exact new_grel. }
    { lia. }
    change (Z.of_nat 0) with 0 in E1. rewrite E1. cbn [bind].
    assert (A0 : ~ (powlin x (m + d) O == 0)%Q).
    { rewrite powlin_closed, binom_0, Z.mul_1_l. apply zpow_nz; auto. }
    destruct (grel_trie m1 K _ G1 A0) as (t1 & Et1 & T1).
    destruct (residue_loop_ok K ltac:(lia) rest 1 (ms_trie m1) None t1 (powlin x (m + d)) R Et1 T1 A0) as (m1' & sub' & t' & A' & F1 & F2 & F3 & F4).
    rewrite F1. cbn [bind fst snd]. replace (deref (if Nat.odd (length ((0, n0) :: rest)) then m1' else sub')) with (Ok t').
    2:{ unfold cur in F2. cbn [length]. change (1 + length rest)%nat with (S (length rest)) in F2. rewrite F2. reflexivity. }
    cbn [bind]. destruct (trie_poly_terms 1 t' _ F3) as (out & E3 & ND & GD & PQ). rewrite E3. cbn [bind].
    destruct (find_coeff_ok (Z.of_nat K) out ND) as [C1 C2].
    { eapply Forall_impl; [|exact GD]. cbv beta. tauto. }
    set (c := find_coeff out (Z.of_nat K)) in *.
    assert (DP : den_prod (Z.of_nat K) rest <> 0) by (apply den_prod_nz; [lia|exact R]).
    assert (CD : den c <> 0) by (destruct C1; lia).
    destruct (reduce_ok (1 * num c) (1 * den_prod (Z.of_nat K) rest * den c)) as [B1 B2].
    { rewrite Z.mul_1_l. now apply Z.neq_mul_0. }
    destruct (reduce (1 * num c) (1 * den_prod (Z.of_nat K) rest * den c)) as [a b] eqn:ER. cbn [fst snd] in B1, B2.
    exists a, b. split; auto. split; auto. rewrite B2.
    specialize (PQ [Z.of_nat K]). rewrite coef_sp, Nat2Z.id in PQ. destruct (Z.leb_spec 0 (Z.of_nat K)); [|lia]. destruct (Z.ltb_spec (Z.of_nat K) (Z.of_nat (S K))); [|lia]. cbn [andb] in PQ.
    rewrite PQ in C2. pose proof (F4 K) as F5. cbv beta in F5. rewrite F5 in C2.
    unfold res. fold k. fold K.
    rewrite (divs_perm (map (fun b0 => x - b0) (others x xs)) (expand rest) _ (Permutation_sym P) (others_nz x xs) K).
    unfold ratio. rewrite !Z.mul_1_l, inject_Z_mult.
    assert (VC : (value c == inject_Z (num c) / inject_Z (den c))%Q).
    { apply value_div. apply C1. }
    rewrite VC in C2. assert (CQ : ~ (inject_Z (den c) == 0)%Q) by now apply injz_nz. assert (DQ : ~ (inject_Z (den_prod (Z.of_nat K) rest) == 0)%Q) by now apply injz_nz.
    assert (C3 : (inject_Z (num c) == inject_Z (den_prod (Z.of_nat K) rest) * divs (expand rest) (powlin x (m + d)) K * inject_Z (den c))%Q).
    { rewrite <- C2. field. auto. }
    rewrite C3. field. split; auto.
Qed.
