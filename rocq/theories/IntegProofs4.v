From Coq Require Import QArith Qfield Permutation.
From Verif Require Import Common Rational RationalSpec RationalProofs Trie Integ IntegSpec IntegMath IntegProofs IntegProofs2 IntegProofs3.
Open Scope Z_scope.

(** ** one vertex *)
Lemma mul_n_ok n x : forall acc, mul_n n x acc = acc * x ^ Z.of_nat n.
Proof.
  induction n as [|n IH]; intros acc; cbn [mul_n]; [rewrite Z.pow_0_r; lia|].
  rewrite IH, Nat2Z.inj_succ, Z.pow_succ_r by lia. ring.
Qed.
Definition zprod (l : list Z) : Z := fold_right Z.mul 1 l.
Lemma zprod_app l r : zprod (l ++ r) = zprod l * zprod r.
Proof. induction l as [|x l IH]; cbn [zprod fold_right app]; [unfold zprod; lia|]. fold (zprod (l ++ r)) (zprod l). rewrite IH. ring. Qed.
Lemma prod_diff_far x i : forall xs j acc, (i < j)%nat \/ (j + length xs <= i)%nat -> prod_diff xs j i x acc = acc * zprod (map (fun y => x - y) xs).
Proof.
  induction xs as [|y xs IH]; intros j acc H; cbn [prod_diff map zprod fold_right]; [lia|].
  cbn [length] in H. destruct (Nat.eqb_spec j i) as [E|E]; [lia|]. rewrite IH by lia. fold (zprod (map (fun y => x - y) xs)). ring.
Qed.
Lemma prod_diff_split x l2 : forall l1 j acc, prod_diff (l1 ++ x :: l2) j (j + length l1) x acc = acc * zprod (map (fun y => x - y) (l1 ++ l2)).
Proof.
  induction l1 as [|y l1 IH]; intros j acc; cbn [app prod_diff length].
  - destruct (Nat.eqb_spec j (j + 0)); [|lia]. apply prod_diff_far. lia.
  - destruct (Nat.eqb_spec j (j + S (length l1))); [lia|]. replace (j + S (length l1))%nat with (S j + length l1)%nat by lia.
    rewrite IH. cbn [map zprod fold_right]. fold (zprod (map (fun y => x - y) (l1 ++ l2))). ring.
Qed.
Lemma zprod_nz l : Forall (fun c => c <> 0) l -> zprod l <> 0.
Proof. induction 1 as [|c l H HL IH]; cbn [zprod fold_right]; [lia|]. fold (zprod l). now apply Z.neq_mul_0. Qed.
Lemma zprod_z l : In 0 l -> zprod l = 0.
Proof. induction l as [|c l IH]; cbn [zprod fold_right In]; [tauto|]. fold (zprod l). intros [->|H]; [lia|]. rewrite IH by auto. lia. Qed.
Lemma divs_at_0 l F : Forall (fun c => c <> 0) l -> (divs l F O == F O / inject_Z (zprod l))%Q.
Proof.
  induction 1 as [|c l H HL IH]; cbn [divs fold_right zprod]; [unfold Qdiv; change (inject_Z 1) with 1%Q; field|].
  fold (divs l F) (zprod l). cbn [divlin]. rewrite IH, inject_Z_mult. pose proof (zprod_nz l HL). field. split; now apply injz_nz.
Qed.
Lemma others_app v l r : others v (l ++ r) = others v l ++ others v r.
Proof. apply filter_app. Qed.
Lemma others_absent v l : ~ In v l -> others v l = l.
Proof.
  intros H. unfold others. apply filter_all. apply Forall_forall. intros y Hy. destruct (Z.eqb_spec y v) as [->|]; [contradiction|reflexivity].
Qed.

Lemma vertex_fraction_ok d m l1 x l2 : length (l1 ++ x :: l2) = S d -> Z.of_nat (m + d) < 2 ^ 20 - 1 ->
  ~ (d <> O /\ m = O /\ Forall (fun y => y = 0) (l1 ++ x :: l2)) ->
  exists a b, vertex_fraction (Z.of_nat d) (Z.of_nat m) (l1 ++ x :: l2) (length l1) x = Ok (a, b) /\ b <> 0 /\
    (ratio a b == res x (l1 ++ x :: l2) (powlin x (m + d)))%Q.
Proof.
  intros HL HS HX. unfold vertex_fraction. rewrite mul_n_ok.
  pose proof (prod_diff_split x l2 l1 O 1) as PD. cbn [Nat.add] in PD. rewrite PD. clear PD. rewrite !Z.mul_1_l.
  set (nu := x ^ _). set (de := zprod (map (fun y => x - y) (l1 ++ l2))).
  destruct (in_dec Z.eq_dec x (l1 ++ l2)) as [Hin|Hout].
  - assert (D0 : de = 0).
    { apply zprod_z. apply in_map_iff. exists x. split; [lia|auto]. }
    rewrite D0. change (0 <? 0) with false. rewrite andb_false_r. change (0 =? 0) with true. cbv iota.
    apply compute_residue_ok; auto.
    + apply in_elt.
    + rewrite count_occ_app. cbn [count_occ]. destruct (Z.eq_dec x x); [|congruence]. apply (count_occ_In Z.eq_dec) in Hin. rewrite count_occ_app in Hin. lia.
    + intros [E F]. apply HX. split; auto. intros ->. rewrite app_length in HL. cbn [length] in HL. destruct l1, l2; cbn in HL; try lia. destruct Hin.
  - assert (NZ : Forall (fun c => c <> 0) (map (fun y => x - y) (l1 ++ l2))).
    { apply Forall_forall. intros c Hc. apply in_map_iff in Hc as (y & <- & Hy). intros E. apply Hout. replace x with y by lia. exact Hy. }
    assert (DN : de <> 0) by now apply zprod_nz.
    assert (RES : (ratio nu de == res x (l1 ++ x :: l2) (powlin x (m + d)))%Q).
    { unfold res. rewrite others_app. unfold others at 2. cbn [filter]. rewrite Z.eqb_refl. cbn [negb]. fold (others x l2). rewrite <- others_app, (others_absent _ _ Hout).
      replace (count_occ Z.eq_dec (l1 ++ x :: l2) x - 1)%nat with O.
      - rewrite divs_at_0 by exact NZ. fold de. rewrite powlin_closed, binom_0, Z.mul_1_l, Nat.sub_0_r. unfold ratio, nu.
        rewrite Nat2Z.inj_add. rewrite <- Nat2Z.inj_add, Nat2Z.id. reflexivity.
      - rewrite count_occ_app. cbn [count_occ]. destruct (Z.eq_dec x x); [|congruence]. apply (count_occ_not_In Z.eq_dec) in Hout. rewrite count_occ_app in Hout. lia. }
    destruct ((nu <? 0) && (de <? 0)).
    + exists (- nu), (- de). destruct (Z.eqb_spec (- de) 0); [lia|]. split; auto. split; [lia|]. rewrite <- RES.
      unfold ratio. rewrite !inject_Z_opp. field. now apply injz_nz.
    + exists nu, de. destruct (Z.eqb_spec de 0); [lia|]. auto.
Qed.

(** ** all vertices *)
Fixpoint firsts (seen rest : list Z) : list Z :=
  match rest with [] => [] | x :: r => if memz x seen then firsts (x :: seen) r else x :: firsts (x :: seen) r end.
Lemma memz_in x l : memz x l = true <-> In x l.
Proof. induction l as [|y l IH]; cbn; [intuition congruence|]. rewrite orb_true_iff, IH, Z.eqb_eq. tauto. Qed.
Lemma firsts_props : forall rest seen, NoDup (firsts seen rest) /\ forall x, In x (firsts seen rest) <-> In x rest /\ ~ In x seen.
Proof.
  induction rest as [|y rest IH]; intros seen; cbn [firsts].
  - split; [constructor|]. cbn. tauto.
  - destruct (IH (y :: seen)) as [N I]. destruct (memz y seen) eqn:M.
    + apply memz_in in M. split; auto. intros x. rewrite I. cbn [In]. destruct (Z.eq_dec y x); [subst; tauto|]. tauto.
    + assert (NI : ~ In y seen) by (intros H; apply memz_in in H; congruence). split.
      * constructor; auto. rewrite I. cbn [In]. tauto.
      * intros x. cbn [In]. rewrite I. cbn [In]. destruct (Z.eq_dec y x); [subst; tauto|]. tauto.
Qed.
Lemma firsts_nodup xs : Permutation (firsts [] xs) (nodup Z.eq_dec xs).
Proof.
  destruct (firsts_props xs []) as [N I]. apply NoDup_Permutation; auto; [apply NoDup_nodup|]. intros x. rewrite I, nodup_In. cbn. tauto.
Qed.
Definition fval (f : Z * Z) : Q := ratio (fst f) (snd f).
Lemma fractions_ok d m xs : length xs = S d -> Z.of_nat (m + d) < 2 ^ 20 - 1 ->
  ~ (d <> O /\ m = O /\ Forall (fun y => y = 0) xs) ->
  forall rest pre, pre ++ rest = xs -> forall seen,
  exists fs, fractions (Z.of_nat d) (Z.of_nat m) xs seen rest (length pre) = Ok fs /\ Forall (fun f => snd f <> 0) fs /\
    (qsum fval fs == qsum (fun v => res v xs (powlin v (m + d))) (firsts seen rest))%Q.
Proof.
  intros HL HS HX. induction rest as [|x rest IH]; intros pre E seen; cbn [fractions firsts].
  - exists []. split; auto. split; [constructor|reflexivity].
  - destruct (IH (pre ++ [x])) with (seen := x :: seen) as (fs & F1 & F2 & F3); [now rewrite <- app_assoc|].
    rewrite app_length in F1. cbn [length] in F1. rewrite Nat.add_1_r in F1. destruct (memz x seen); [exists fs; auto|].
    subst xs. destruct (vertex_fraction_ok d m pre x rest HL HS HX) as (a & b & V1 & V2 & V3). rewrite V1. cbn [bind]. rewrite F1. cbn [bind].
    exists ((a, b) :: fs). split; auto. split; [constructor; auto|]. cbn [qsum]. unfold fval at 1. cbn [fst snd]. rewrite V3, F3. reflexivity.
Qed.

(** ** common denominator *)
Lemma lcm_step l de : l <> 0 -> de <> 0 -> let L := l * de / Z.gcd l de in L <> 0 /\ (l | L) /\ (de | L).
Proof.
  intros Hl Hd. cbv zeta. destruct (Z.gcd_divide_l l de) as [u Hu]. destruct (Z.gcd_divide_r l de) as [w Hw].
  assert (G : Z.gcd l de <> 0) by (intros E; apply Z.gcd_eq_0_l in E; auto).
  set (g := Z.gcd l de) in *. assert (E : l * de / g = u * w * g).
  { rewrite Hu, Hw at 1. replace (u * g * (w * g)) with (u * w * g * g) by ring. apply Z.div_mul; auto. }
  rewrite E. assert (u <> 0) by (intros ->; lia). assert (w <> 0) by (intros ->; lia). split; [|split].
  - nia.
  - exists w. rewrite Hu. ring.
  - exists u. rewrite Hw. ring.
Qed.
Lemma lcm_dens_ok : forall fs l, l <> 0 -> Forall (fun f => snd f <> 0) fs ->
  lcm_dens fs l <> 0 /\ (l | lcm_dens fs l) /\ Forall (fun f => (snd f | lcm_dens fs l)) fs.
Proof.
  induction fs as [|[nu de] fs IH]; intros l Hl F; cbn [lcm_dens].
  - split; auto. split; [apply Z.divide_refl|constructor].
  - pose proof (Forall_inv F) as Hd. cbn in Hd. destruct (Z.eqb_spec de 0); [contradiction|]. cbn [negb].
    destruct (lcm_step l de Hl Hd) as (A & B & C). destruct (IH _ A (Forall_inv_tail F)) as (I1 & I2 & I3).
    split; auto. split; [eapply Z.divide_trans; eauto|]. constructor; auto. cbn [snd]. eapply Z.divide_trans; eauto.
Qed.
Lemma total_of_ok L : L <> 0 -> forall fs tot, Forall (fun f => snd f <> 0) fs -> Forall (fun f => (snd f | L)) fs ->
  (ratio (total_of fs L tot) L == ratio tot L + qsum fval fs)%Q.
Proof.
  intros HL. induction fs as [|[nu de] fs IH]; intros tot F G; cbn [total_of qsum]; [ring|].
  pose proof (Forall_inv F) as Hd. pose proof (Forall_inv G) as Gd. cbn [snd] in *. destruct (Z.eqb_spec de 0); [contradiction|]. cbn [negb].
  rewrite IH by (eapply Forall_inv_tail; eauto). destruct Gd as [q Hq]. assert (E : L / de = q) by (rewrite Hq; apply Z.div_mul; auto).
  set (rest := qsum fval fs). rewrite E. unfold fval. cbn [fst snd]. unfold ratio. rewrite inject_Z_plus, inject_Z_mult.
  assert (Q1 : (inject_Z L == inject_Z q * inject_Z de)%Q) by (rewrite <- inject_Z_mult, <- Hq; reflexivity).
  assert (Q0 : q <> 0) by (intros ->; lia). rewrite Q1. field. split; now apply injz_nz.
Qed.
Lemma accumulate_ok a b t l : l <> 0 -> (a <> 0 -> b <> 0) ->
  snd (accumulate a b t l) <> 0 /\ (fval (accumulate a b t l) == (if a =? 0 then 0 else ratio a b) + ratio t l)%Q.
Proof.
  intros Hl Hb. unfold accumulate, fval. destruct (Z.eqb_spec a 0) as [->|Ha].
  - destruct (reduce_ok t l Hl) as [A B]. split; auto. rewrite B. ring.
  - specialize (Hb Ha). destruct (Z.eqb_spec l 0), (Z.eqb_spec b 0); try contradiction. cbn [negb andb].
    destruct (lcm_step b l Hb Hl) as (A & (q & B) & (r & C)). cbv zeta in *. set (L := b * l / Z.gcd b l) in *.
    destruct (reduce_ok (a * L / b + t * L / l) L A) as [R1 R2]. split; auto. rewrite R2.
    replace (a * L / b) with (a * q) by (rewrite B, Z.mul_assoc; symmetry; apply Z.div_mul; auto).
    replace (t * L / l) with (t * r) by (rewrite C, Z.mul_assoc; symmetry; apply Z.div_mul; auto).
    unfold ratio. rewrite inject_Z_plus, !inject_Z_mult.
    assert (Q1 : (inject_Z L == inject_Z q * inject_Z b)%Q) by (rewrite <- inject_Z_mult, <- B; reflexivity).
    assert (Q2 : (inject_Z L == inject_Z r * inject_Z l)%Q) by (rewrite <- inject_Z_mult, <- C; reflexivity).
    assert (q <> 0) by (intros ->; lia). assert (r <> 0) by (intros ->; lia).
    transitivity (inject_Z a * inject_Z q / inject_Z L + inject_Z t * inject_Z r / inject_Z L)%Q.
    { field. now apply injz_nz. }
    rewrite Q1 at 1. rewrite Q2. field. repeat split; now apply injz_nz.
Qed.
Lemma dotz_ok : forall a b acc, dotz a b acc = acc + dot a b.
Proof. induction a as [|x a IH]; intros [|y b] acc; cbn [dotz dot]; try lia. rewrite IH. lia. Qed.
Lemma fact_loop_ok : forall n i acc, fact_loop n (Z.of_nat (S i)) acc * zfact i = acc * zfact (i + n).
Proof.
  induction n as [|n IH]; intros i acc; cbn [fact_loop]; [now rewrite Nat.add_0_r|].
  replace (Z.of_nat (S i) + 1) with (Z.of_nat (S (S i))) by lia. specialize (IH (S i) (acc * Z.of_nat (S i))).
  replace (S i + n)%nat with (i + S n)%nat in IH by lia. cbn [zfact] in IH. set (Y := zfact (i + S n)) in *.
  set (X := fact_loop n _ _) in *. apply (Z.mul_reg_l _ _ (Z.of_nat (S i))); [lia|]. rewrite Z.mul_assoc. rewrite (Z.mul_comm (Z.of_nat (S i)) X). rewrite <- Z.mul_assoc, IH. ring.
Qed.
Lemma fact_loop_fact n : fact_loop n 1 1 = zfact n.
Proof. pose proof (fact_loop_ok n 0 1) as H. cbn [zfact Nat.add] in H. change (Z.of_nat 1) with 1 in H. lia. Qed.
Lemma zfact_pos n : 0 < zfact n.
Proof. induction n as [|n IH]; cbn [zfact]; lia. Qed.

(** ** update and integrateLinFormSum *)
Definition okform (s : simplex) (t : bterm rat) : Prop :=
  0 <= t_deg t /\ t_deg t + Z.of_nat (s_dim s) < 2 ^ 20 - 1 /\ lowest_terms (t_coef t) /\
  ~ (s_dim s <> O /\ t_deg t = 0 /\ Forall (fun v => dot (t_exps t) v = 0) (s_vertices s)).
Definition oksimplex (s : simplex) : Prop := length (s_vertices s) = S (s_dim s) /\ (s_dim s < 1000)%nat.
Definition term_integral (s : simplex) (t : bterm rat) : Q :=
  (value (t_coef t) * form_integral (s_vol s) (s_dim s) (s_vertices s) (t_exps t) (Z.to_nat (t_deg t)))%Q.

Lemma fractions_sum d m xs : length xs = S d -> Z.of_nat (m + d) < 2 ^ 20 - 1 ->
  ~ (d <> O /\ m = O /\ Forall (fun y => y = 0) xs) ->
  exists fs, fractions (Z.of_nat d) (Z.of_nat m) xs [] xs 0 = Ok fs /\ Forall (fun f => snd f <> 0) fs /\ (qsum fval fs == inject_Z (hsym xs m))%Q.
Proof.
  intros HL HS HX. destruct (fractions_ok d m xs HL HS HX xs [] eq_refl []) as (fs & F1 & F2 & F3).
  exists fs. split; auto. split; auto. rewrite F3, (qsum_perm _ _ _ (firsts_nodup xs)).
  fold (D xs (m + d)). destruct xs as [|a T]; [discriminate|]. rewrite residues_are_hsym. injection HL as ->.
  destruct (Nat.ltb_spec (m + d) d); [lia|]. now replace (m + d - d)%nat with m by lia.
Qed.

Lemma update_ok a b s t : oksimplex s -> okform s t -> (a <> 0 -> b <> 0) ->
  exists r, update a b (t_exps t) s (t_deg t) (t_coef t) (fact_loop (Z.to_nat (Z.of_nat (s_dim s) + t_deg t)) 1 1) = Ok r /\
    snd r <> 0 /\ (fval r == (if a =? 0 then 0 else ratio a b) + term_integral s t)%Q.
Proof.
  intros (HV & HD) (M0 & MB & LC & NC) Hb. unfold update. destruct (Nat.leb_spec 1000 (s_dim s)); [lia|].
  cbv zeta. rewrite fact_loop_fact. set (m := Z.to_nat (t_deg t)) in *. assert (Em : t_deg t = Z.of_nat m) by lia.
  replace (map (fun v => dotz (t_exps t) v 0) (s_vertices s)) with (map (dot (t_exps t)) (s_vertices s)) by (apply map_ext; intros v; now rewrite dotz_ok).
  set (xs := map (dot (t_exps t)) (s_vertices s)).
  destruct (fractions_sum (s_dim s) m xs) as (fs & F1 & F2 & F3).
  { unfold xs. now rewrite map_length. }
  { lia. }
  { intros (A & B & C). apply NC. split; auto. split; [lia|]. unfold xs in C. rewrite Forall_forall in *. intros v Hv. apply C. now apply in_map. }
  rewrite Em, F1. cbn [bind]. destruct (lcm_dens_ok fs 1 ltac:(lia) F2) as (L1 & _ & L3). set (L := lcm_dens fs 1) in *.
  pose proof (total_of_ok L L1 fs 0 F2 L3) as T. set (tot := total_of fs L 0) in *.
  replace (Z.to_nat (Z.of_nat (s_dim s) + Z.of_nat m)) with (s_dim s + m)%nat by lia.
  pose proof (zfact_pos (s_dim s + m)) as FP. destruct LC as [DP _].
  eexists. split; [reflexivity|].
  destruct (accumulate_ok a b (tot * s_vol s * num (t_coef t)) (L * zfact (s_dim s + m) * den (t_coef t))) as [A1 A2]; auto.
  { apply Z.neq_mul_0. split; [|lia]. apply Z.neq_mul_0. split; auto. lia. }
  split; auto. rewrite A2. apply Qplus_comp; [reflexivity|].
  assert (R0 : (ratio 0 L == 0)%Q) by (unfold ratio; change (inject_Z 0) with 0%Q; unfold Qdiv; ring).
  rewrite R0, Qplus_0_l, F3 in T. unfold term_integral, form_integral. fold xs m. rewrite (value_div _ ltac:(exact DP)). unfold ratio in *.
  rewrite !inject_Z_mult, <- T. field.
  repeat split; apply injz_nz; auto; lia.
Qed.

Lemma integrate_loop_ok s : oksimplex s -> forall ts a b, Forall (okform s) ts -> (a <> 0 -> b <> 0) ->
  exists r, integrate_loop ts s a b = Ok r /\ (b <> 0 \/ ts <> [] -> snd r <> 0) /\ ((a <> 0 -> b <> 0) -> (fst r <> 0 -> snd r <> 0)) /\
    ((if fst r =? 0 then 0 else fval r) == (if a =? 0 then 0 else ratio a b) + qsum (term_integral s) ts)%Q.
Proof.
  intros HS. induction ts as [|t ts IH]; intros a b F Hb; cbn [integrate_loop qsum].
  - exists (a, b). split; auto. split; [intros [H|H]; [exact H|congruence]|]. split; [auto|]. cbn [fst]. unfold fval; cbn [fst snd]. destruct (a =? 0); ring.
  - destruct (update_ok a b s t HS (Forall_inv F) Hb) as (r & U1 & U2 & U3). rewrite U1. cbn [bind].
    destruct (IH (fst r) (snd r) (Forall_inv_tail F)) as (r' & I1 & I2 & I3 & I4); [auto|].
    exists r'. split; auto. split; [intros _; apply I2; now left|]. split; [auto|]. rewrite I4.
    assert (E : ((if fst r =? 0 then 0 else ratio (fst r) (snd r)) == fval r)%Q).
    { unfold fval. destruct (Z.eqb_spec (fst r) 0) as [E|E]; [|reflexivity]. rewrite E. unfold ratio. change (inject_Z 0) with 0%Q. unfold Qdiv. ring. }
    rewrite E, U3. ring.
Qed.

Theorem integrate_forms_ok s ts : oksimplex s -> Forall (okform s) ts -> ts <> [] ->
  exists a b, integrate_forms ts s = Ok (a, b) /\ 0 < b /\ (ratio a b == qsum (term_integral s) ts)%Q.
Proof.
  intros HS F N. unfold integrate_forms. destruct (integrate_loop_ok s HS ts 0 0 F) as ([a b] & I1 & I2 & _ & I4); [lia|].
  rewrite I1. cbn [bind]. cbn [snd fst] in I2. assert (B : b <> 0) by (apply I2; auto). clear I2.
  change (0 =? 0) with true in I4. cbv iota in I4. cbn [fst] in I4. rewrite Qplus_0_l in I4.
  assert (V : (ratio a b == qsum (term_integral s) ts)%Q).
  { rewrite <- I4. unfold fval. cbn [fst snd]. destruct (Z.eqb_spec a 0) as [->|]; [|reflexivity]. unfold ratio. change (inject_Z 0) with 0%Q. unfold Qdiv. ring. }
  destruct (Z.ltb_spec b 0).
  - exists (a * -1), (b * -1). split; auto. split; [lia|]. rewrite <- V. unfold ratio. rewrite !inject_Z_mult. change (inject_Z (-1)) with (-1)%Q. field. now apply injz_nz.
  - exists a, b. split; auto. split; [lia|]. exact V.
Qed.
