From Coq Require Import QArith Qfield Qpower Permutation.
From Verif Require Import Common Rational RationalSpec RationalProofs Trie TrieSpec TrieProofs TrieProofs2 Integ IntegSpec IntegMath IntegProofs IntegProofs2 IntegProofs3 IntegProofs4 DecompProofs DecompProofs2 DecompProofs3 DecompProofs4.
Open Scope Z_scope.

Lemma sum_over_qsum {A} (f : A -> Q) l : sum_over f l = qsum f l.
Proof. induction l as [|a l IH]; cbn; [reflexivity|]. unfold sum_over in IH. now rewrite IH. Qed.
Lemma times_lins_inj l F G : Forall (fun c => c <> 0) l -> times_lins l F ≡ times_lins l G -> F ≡ G.
Proof. induction 1 as [|c l H HL IH]; cbn [times_lins fold_right]; auto. intros E. apply IH. apply (mul_inj (inject_Z c)); [now apply injz_nz|exact E]. Qed.
Lemma times_lin_ext c F G : F ≡ G -> times_lin c F ≡ times_lin c G.
Proof. apply (mullin_ext (inject_Z c)). Qed.
Lemma times_comm c l F : times_lins l (times_lin c F) ≡ times_lin c (times_lins l F).
Proof. induction l as [|e l IH]; cbn [times_lins fold_right]; [apply seq_refl|]. eapply seq_trans; [apply times_lin_ext, IH|]. apply (mul_comm (inject_Z e) (inject_Z c)). Qed.
Lemma times_divs l F : Forall (fun c => c <> 0) l -> times_lins l (divs l F) ≡ F.
Proof.
  induction 1 as [|c l H HL IH]; cbn [times_lins divs fold_right]; [apply seq_refl|].
  fold (times_lins l) (divs l F). eapply seq_trans; [apply seq_sym, times_comm|].
  eapply seq_trans; [|exact IH]. clear IH. induction HL as [|e l He HL IH]; cbn [times_lins fold_right].
  - intros j. apply (mul_div (inject_Z c)). now apply injz_nz.
  - revert IH. generalize (divs (e :: l) F) (divs l F). intros A B IH. apply times_lin_ext.
    clear - H. induction l as [|x l IHl]; cbn [fold_right]; [apply (mul_div (inject_Z c)); now apply injz_nz|]. now apply times_lin_ext.
Qed.
Lemma occ_count x xs : occurrences x xs = count_occ Z.eq_dec xs x.
Proof. unfold occurrences. induction xs as [|y xs IH]; cbn; auto. destruct (Z.eqb_spec y x), (Z.eq_dec y x); try congruence; cbn; auto. Qed.
Lemma residue_exact d m xs x G : (2 <= occurrences x xs)%nat -> length xs = S d -> Z.of_nat (m + d) < 2 ^ 20 - 1 ->
  ~ (m = O /\ Forall (fun y => y = 0) xs) ->
  (forall j, (times_lins (other_diffs x xs) G j == power_coeff x (m + d) j)%Q) ->
  exists a b, compute_residue (Z.of_nat d) (Z.of_nat m) (map (fun y => x - y) xs) x = Ok (a, b) /\ b <> 0 /\
    (inject_Z a / inject_Z b == G (occurrences x xs - 1)%nat)%Q.
Proof.
  intros H2 HL HS HX HG. rewrite occ_count in *.
  destruct (compute_residue_ok d m xs x) as (a & b & E & B & V); auto.
  { apply (count_occ_In Z.eq_dec). lia. }
  exists a, b. split; auto. split; auto. unfold ratio in V. rewrite V. unfold res.
  assert (EQ : divs (other_diffs x xs) (powlin x (m + d)) ≡ G); [|apply EQ].
  apply (times_lins_inj (other_diffs x xs)); [apply (others_nz x xs)|].
  eapply seq_trans; [apply times_divs, (others_nz x xs)|]. intros j. rewrite (HG j). apply powlin_closed.
Qed.

Lemma distinct_formula xs m : NoDup xs -> xs <> [] ->
  (sum_over (fun v => inject_Z (v ^ Z.of_nat (m + (length xs - 1))) / inject_Z (fold_right Z.mul 1%Z (other_diffs v xs))) xs == inject_Z (hsym xs m))%Q.
Proof.
  intros ND NE. destruct xs as [|a T]; [congruence|]. pose proof (residues_are_hsym T a (m + length T)) as R. cbn [length]. replace (S (length T) - 1)%nat with (length T) by lia.
  destruct (Nat.ltb_spec (m + length T) (length T)); [lia|]. replace (m + length T - length T)%nat with m in R by lia. rewrite <- R. unfold D.
  rewrite sum_over_qsum. rewrite (nodup_fixed_point Z.eq_dec ND). apply qsum_ext. intros v Hv. unfold res.
  rewrite (proj1 (NoDup_count_occ' Z.eq_dec (a :: T)) ND v Hv). cbn [Nat.sub]. rewrite divs_at_0 by apply others_nz.
  rewrite powlin_closed, binom_0, Z.mul_1_l, Nat.sub_0_r. reflexivity.
Qed.

Lemma integrate_exact s ts : length (s_vertices s) = S (s_dim s) -> (s_dim s < 1000)%nat -> ts <> [] ->
  Forall (fun t => 0 <= t_deg t /\ t_deg t + Z.of_nat (s_dim s) < 2 ^ 20 - 1 /\ lowest_terms (t_coef t) /\
    ~ (s_dim s <> O /\ t_deg t = 0 /\ Forall (fun v => dot (t_exps t) v = 0) (s_vertices s))) ts ->
  exists a b, integrate_forms ts s = Ok (a, b) /\ 0 < b /\
    (inject_Z a / inject_Z b == sum_over (fun t => value (t_coef t) * form_integral (s_vol s) (s_dim s) (s_vertices s) (t_exps t) (Z.to_nat (t_deg t))) ts)%Q.
Proof.
  intros A B NE F. destruct (integrate_forms_ok s ts (conj A B) F NE) as (a & b & E1 & E2 & E3). exists a, b. split; auto. split; auto. rewrite sum_over_qsum. exact E3.
Qed.

(** ** from the insertions on *)
Lemma coefficient_as_input l x : (coefficient (as_input l) (-1) x == coef (input_poly l) x)%Q.
Proof. induction l as [|p l IH]; cbn [as_input map coefficient input_poly coef fst snd]; [reflexivity|]. fold (as_input l) (input_poly l). rewrite IH. reflexivity. Qed.
Lemma poly_terms n l : n <> O -> Forall (fun p => lowest_terms (fst p) /\ length (snd p) = n) l ->
  (exists x, ~ (coef (input_poly l) x == 0)%Q) ->
  exists m ts, insert_all rat_add rat_zero (as_input l) (new_sum n) = Ok m /\ ms_vars m = n /\ sum_terms rat_zero m = Ok ts /\ ts <> [] /\ NoDup (map t_exps ts) /\
    Forall (fun t => lowest_terms (t_coef t) /\ ~ (value (t_coef t) == 0)%Q /\ In (t_exps t) (map snd l)) ts /\
    forall x, (qsum (term_value x) ts == poly_at (input_poly l) x)%Q.
Proof.
  intros Hn HL (x0 & H0).
  destruct (trie_exact n (as_input l) Hn) as (m & ts & E1 & E2 & E3 & E4 & E5 & _).
  - unfold as_input. apply Forall_map. eapply Forall_impl; [|exact HL]. cbn [fst snd]. auto.
  - destruct (Exists_dec (fun p => ~ (value (fst (fst p)) == 0)%Q) (as_input l)) as [X|X].
    + intros p. destruct (Qeq_dec (value (fst (fst p))) 0); [right; tauto|now left].
    + apply Exists_exists in X as (p & Hp & V). now exists p.
    + exfalso. apply H0. rewrite <- coefficient_as_input. apply Forall_Exists_neg in X. clear - X. induction X as [|p r Hp X IH]; cbn [coefficient]; [reflexivity|].
      rewrite IH. assert (E : (value (fst (fst p)) == 0)%Q) by (destruct (Qeq_dec (value (fst (fst p))) 0); tauto). destruct ((snd (fst p) =? -1) && same_exps (snd p) x0); rewrite ?E; ring.
  - assert (KEY : forall t, In t ts -> In (t_exps t) (map snd l) /\ t_deg t = -1).
    { intros t Ht. rewrite Forall_forall in E4. destruct (E4 t Ht) as [_ A]. assert (C : ~ (coefficient (as_input l) (t_deg t) (t_exps t) == 0)%Q).
      { rewrite <- E5. rewrite (coefficient_nodup ts (t_deg t) (t_exps t) (t_coef t)); auto. now destruct t. }
      apply coefficient_in in C as (p & Hp & K1 & K2). unfold as_input in Hp. apply in_map_iff in Hp as (q & <- & Hq). cbn [fst snd] in *. split; [|auto]. rewrite <- K2. now apply in_map. }
    exists m, ts. split; auto. split.
    { assert (MV : forall k r m m', fold_out (fun m x => insert_form rat_add rat_zero m (fst (fst x)) (snd (fst x)) (snd x)) k m = Ok m' -> ms_vars m' = ms_vars m \/ r = O).
      { induction k as [|p k IH]; intros r a b Hk; cbn [fold_out] in Hk; [injection Hk as <-; now left|].
        destruct (insert_form rat_add rat_zero a (fst (fst p)) (snd (fst p)) (snd p)) as [c|e] eqn:EC; cbn [bind] in Hk; [|discriminate].
        destruct (IH r _ _ Hk) as [->|]; [|now right]. left. unfold insert_form in EC. destruct (rat_zero (fst (fst p))); [congruence|].
        cbv zeta in EC. destruct (if (ms_terms a =? 0)%nat then Some empty_trie else ms_trie a) as [t|]; [|discriminate].
        destruct (insert_term rat_add t (fst (fst p)) (snd p) (snd (fst p))); cbn [bind] in EC; [|discriminate]. injection EC as <-. reflexivity. }
      destruct (MV _ 1%nat _ _ E1) as [MV1|]; [exact MV1|discriminate]. }
    split; auto. split.
    { intros ->. apply H0. rewrite <- coefficient_as_input, <- E5. reflexivity. }
    split.
    { clear - E3 KEY. induction ts as [|t ts IH]; cbn [map] in *; [constructor|]. apply NoDup_cons_iff in E3 as [N1 N2]. constructor; [|apply IH; auto; intros u Hu; apply KEY; now right].
      intros H. apply N1. apply in_map_iff in H as (u & E & Hu). apply in_map_iff. exists u. split; auto. rewrite E.
      rewrite (proj2 (KEY u ltac:(now right))), (proj2 (KEY t ltac:(now left))). reflexivity. }
    split.
    { apply Forall_forall. intros t Ht. rewrite Forall_forall in E4. destruct (E4 t Ht). split; auto. split; auto. now apply KEY. }
    intros x. unfold poly_at. rewrite sum_over_qsum. pose (h := fun (d : Z) e => qmono e x).
    transitivity (wsum h (map triple ts)); [unfold wsum; rewrite qsum_map; reflexivity|]. rewrite (wsum_eq h _ (map triple ts) (as_input l) (le_n _) E5).
    unfold wsum, as_input, input_poly. rewrite !qsum_map. reflexivity.
Qed.
Definition forms_of (out : list (bterm rat)) : list (Q * Z * list Z) := map (fun t => (value (t_coef t), t_deg t, t_exps t)) out.
Lemma decompose_identity n l : n <> O -> Forall (fun p => lowest_terms (fst p) /\ length (snd p) = n /\ Forall (fun e => 0 <= e) (snd p)) l ->
  (exists x, ~ (coef (input_poly l) x == 0)%Q) ->
  exists m ts f out, insert_all rat_add rat_zero (as_input l) (new_sum n) = Ok m /\ sum_terms rat_zero m = Ok ts /\
    decompose ts (new_sum n) = Ok f /\ sum_terms rat_zero f = Ok out /\ out <> [] /\
    Forall (fun t => ~ (value (t_coef t) == 0)%Q /\ exists e, In e (map snd l) /\ t_deg t = degree e) out /\
    forall x, length x = n -> (forms_at (forms_of out) x == poly_at (input_poly l) x)%Q.
Proof.
  intros Hn HL H0. destruct (poly_terms n l Hn) as (m & ts & E1 & E2 & E3 & E4 & E5 & E6 & E7); auto.
  { eapply Forall_impl; [|exact HL]. cbv beta. tauto. }
  destruct (decompose_exact n ts Hn) as (f & out & D1 & D2 & D3 & _ & D5 & D6); auto.
  { eapply Forall_impl; [|exact E6]. cbv beta. intros t (A & B & C). split; auto. split; auto. apply in_map_iff in C as (p & <- & Hp). rewrite Forall_forall in HL. destruct (HL p Hp) as (_ & X & Y). auto. }
  exists m, ts, f, out. split; auto. split; auto. split; auto. split; auto. split; auto. split.
  - apply Forall_forall. intros t Ht. rewrite Forall_forall in D5, E6. destruct (D5 t Ht) as (_ & A & _ & u & Hu & Du). split; auto. exists (t_exps u). split; auto. now apply E6.
  - intros x L. rewrite <- E7, <- D6 by auto. unfold forms_at, forms_of. rewrite sum_over_qsum, qsum_map. reflexivity.
Qed.
Lemma integrate_polynomial s J Dg l : s_dim s <> O -> (s_dim s < 1000)%nat -> length (s_vertices s) = S (s_dim s) ->
  linear_functional (s_dim s) J -> Z.of_nat (s_dim s) + Dg < 2 ^ 20 - 1 ->
  (forall f m, length f = s_dim s -> (1 <= m)%nat -> Z.of_nat m <= Dg ->
     (J (fun x => qdot f x ^ Z.of_nat m) == inject_Z (zfact m) * form_integral (s_vol s) (s_dim s) (s_vertices s) f m)%Q) ->
  Forall (fun p => lowest_terms (fst p) /\ length (snd p) = s_dim s /\ Forall (fun e => 0 <= e) (snd p) /\ 1 <= degree (snd p) <= Dg) l ->
  (exists x, ~ (coef (input_poly l) x == 0)%Q) ->
  exists m a b, insert_all rat_add rat_zero (as_input l) (new_sum (s_dim s)) = Ok m /\ integrate_monomials m s = Ok (a, b) /\ 0 < b /\
    (inject_Z a / inject_Z b == J (poly_at (input_poly l)))%Q.
Proof.
  intros Hn HD HV (J1 & J2 & J3) HB HJ HL H0. destruct (poly_terms (s_dim s) l Hn) as (m & ts & E1 & E2 & E3 & E4 & E5 & E6 & E7); auto.
  { eapply Forall_impl; [|exact HL]. cbv beta. tauto. }
  rewrite Forall_forall in HL.
  assert (T : Forall (fun t => lowest_terms (t_coef t) /\ ~ (value (t_coef t) == 0)%Q /\ nat_exps (t_exps t) /\ length (t_exps t) = s_dim s /\ 1 <= degree (t_exps t) <= Dg) ts).
  { eapply Forall_impl; [|exact E6]. cbv beta. intros t (A & B & C). apply in_map_iff in C as (p & <- & Hp). destruct (HL p Hp) as (_ & X & Y & W). unfold nat_exps. tauto. }
  destruct (integrate_terms s J ts) as (a & b & I1 & I2 & I3); auto.
  { split; auto. }
  { constructor; auto. }
  { intros f k Lf HK (t & Ht & Dt). rewrite Forall_forall in T. destruct (T t Ht) as (_ & _ & _ & _ & W). change (zdeg (t_exps t)) with (degree (t_exps t)) in Dt. apply HJ; auto; lia. }
  { eapply Forall_impl; [|exact T]. cbv beta. tauto. }
  { eapply Forall_impl; [|exact T]. cbv beta. intros t (_ & _ & _ & _ & W). change (zdeg (t_exps t)) with (degree (t_exps t)). lia. }
  exists m, a, b. split; auto. split; [unfold integrate_monomials; rewrite E3, E2; cbn [bind]; exact I1|]. split; auto.
  unfold ratio in I3. rewrite I3. apply J1. intros x _. apply E7.
Qed.
