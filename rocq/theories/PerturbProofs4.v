(** The integral over a list of tangent cones: the sum. *)
From Coq Require Import QArith Qfield Permutation.
From Verif Require Import Common Rational RationalSpec RationalProofs Trie TrieSpec TrieProofs TrieProofs2 Integ IntegSpec IntegMath IntegProofs IntegProofs2 IntegProofs3 IntegProofs4 IntegProofs5.
From Verif Require Import ZMat Det Perturb PerturbSpec PerturbProofs PerturbProofs2 PerturbProofs3.
Open Scope Q_scope.

Lemma regular_nz fs : Forall (fun f => fst f <> 0%Z) (regular fs).
Proof. apply Forall_forall. intros f H. unfold regular in H. apply filter_In in H as [_ H]. apply negb_true_iff, Z.eqb_neq in H. exact H. Qed.
Lemma cc_regular p q N fs : regular fs = fs -> constant_coefficient p q N fs == inject_Z (p ^ Z.of_nat N) / inject_Z (product (map fst fs)).
Proof.
  intros H. unfold constant_coefficient. rewrite H. replace (vanishing fs) with (@nil Z).
  - cbn [length product fold_right]. pose proof (regular_nz fs) as R. rewrite H in R. clear H. change (inject_Z 1) with 1. unfold Qdiv at 1. setoid_replace (/ 1) with 1 by reflexivity. rewrite Qmult_1_r.
    induction R as [|f fs Hf HR IH]; cbn [over_factors fold_right map product].
    + unfold binomial_series. cbn [binom]. replace (binom N 0) with 1%Z by (destruct N; reflexivity). rewrite Nat.sub_0_r. change (q ^ Z.of_nat 0)%Z with 1%Z. rewrite Z.mul_1_l, Z.mul_1_r. change (inject_Z 1) with 1. field.
    + cbn [over_factor]. fold (over_factors fs (binomial_series p q N)). rewrite IH. fold (product (map fst fs)). rewrite inject_Z_mult.
      assert (P : ~ inject_Z (product (map fst fs)) == 0).
      { apply injz_nz. clear - HR. induction HR; cbn [map product fold_right]; [lia|]. fold (product (map fst l)). nia. }
      pose proof (injz_nz _ Hf). field. auto.
  - unfold vanishing. symmetry. assert (E : filter (fun f => fst f =? 0)%Z fs = []); [|now rewrite E]. pose proof (regular_nz fs) as R. rewrite H in R. clear H.
    induction R as [|f fs Hf HR IH]; cbn [filter]; auto. destruct (Z.eqb_spec (fst f) 0); [contradiction|auto].
Qed.
Lemma divs2_low fs F N : Forall (fun f => fst f <> 0%Z) fs -> (forall j, (j < N)%nat -> F j == 0) -> forall j, (j < N)%nat -> over_factors fs F j == 0.
Proof.
  intros R HF. induction R as [|f fs Hf HR IH]; cbn [over_factors fold_right]; auto. fold (over_factors fs F).
  intros j. induction j as [|j IHj]; intros Hj; cbn [over_factor]; [rewrite IH by auto|rewrite IH, IHj by lia]; field; now apply injz_nz.
Qed.
Lemma cc_zero q N fs : (length (vanishing fs) < N)%nat -> constant_coefficient 0 q N fs == 0.
Proof.
  intros H. unfold constant_coefficient. rewrite (divs2_low _ _ N (regular_nz fs)); auto.
  - unfold Qdiv. ring.
  - intros j Hj. unfold binomial_series. rewrite Z.pow_0_l by lia. replace (binom N j * 0 * q ^ Z.of_nat j)%Z with 0%Z by ring. reflexivity.
Qed.
Lemma vanishing_len fs : (length (vanishing fs) <= length fs)%nat.
Proof. unfold vanishing. rewrite map_length. induction fs; cbn; [lia|]. destruct (_ =? 0)%Z; cbn; lia. Qed.
(** dot products of the term against the cone *)
Lemma pairs_of_cone l e c : map (fun d => (lp_const d, lp_pow d)) (ct_dots c) = map (fun r => (dot l r, 0%Z)) (pc_rays (ct_cone c)) ->
  map lp_eps (ct_dots c) = map (fun r => dot e r) (pc_rays (ct_cone c)) -> map pair_of (ct_dots c) = cone_factors l e (ct_cone c).
Proof.
  unfold cone_factors. generalize (pc_rays (ct_cone c)). induction (ct_dots c) as [|d ds IH]; intros [|r rs]; cbn [map]; try discriminate; auto.
  intros H1 H2. injection H1 as A B C. injection H2 as D E. rewrite (IH rs) by auto. unfold pair_of. congruence.
Qed.
Lemma regular_pairs ds : map pair_of (filter (fun d => negb (lp_const d =? 0)%Z) ds) = regular (map pair_of ds).
Proof. unfold regular. induction ds as [|d ds IH]; cbn; auto. destruct (lp_const d =? 0)%Z; cbn; congruence. Qed.
Lemma vanishing_pairs ds : map lp_eps (zeros ds) = vanishing (map pair_of ds).
Proof. unfold vanishing, zeros. induction ds as [|d ds IH]; cbn; auto. destruct (lp_const d =? 0)%Z; cbn; congruence. Qed.
Lemma expand_len_bound ds x : In x ds -> (lp_const x <> 0)%Z -> (Z.to_nat (lp_pow x) <= length (expand ds))%nat.
Proof.
  unfold expand. induction ds as [|d ds IH]; cbn [flat_map In]; [tauto|]. rewrite app_length. intros [->|H] N.
  - destruct (Z.eqb_spec (lp_const x) 0); [contradiction|]. rewrite repeat_length. lia.
  - specialize (IH H N). lia.
Qed.
Lemma residue_num d M a ds : residue_lawrence d M a ds = residue_lawrence d M (mkLp (lp_const a) (lp_eps a) 0) ds.
Proof. destruct a; reflexivity. Qed.
Lemma zprod_product l : zprod l = product l.
Proof. reflexivity. Qed.
Lemma fold_mul_product {A} (f : A -> Z) l : forall x, fold_left (fun acc d => acc * f d)%Z l x = (x * product (map f l))%Z.
Proof. induction l as [|a l IH]; intros x; cbn [fold_left map product fold_right]; [lia|]. rewrite IH. fold (product (map f l)). ring. Qed.

Lemma integrate_term_ok n m l e c total : n <> O -> (1 <= m)%nat -> (Z.of_nat (m + n) < 2 ^ 20)%Z -> wfcone n (ct_cone c) -> plain_ok n l c -> eps_ok e c -> lowest_terms total ->
  exists total', integrate_term total (Z.of_nat m) (Z.of_nat n) c = Ok total' /\ lowest_terms total' /\
    value total' == value total + inject_Z (cone_det n (ct_cone c)) * constant_coefficient (dot (pc_vertex (ct_cone c)) l) (dot e (pc_vertex (ct_cone c))) (m + n) (cone_factors l e (ct_cone c)).
Proof.
  intros Hn Hm HB [W1 W2] (P1 & P2 & P3) PE LT. unfold integrate_term.
  assert (FL : length (cone_factors l e (ct_cone c)) = n) by (unfold cone_factors; rewrite map_length; exact W1).
  destruct (Z.eq_dec (dot (pc_vertex (ct_cone c)) l) 0) as [E|E].
  { destruct (P2 E) as [_ N0]. rewrite N0. cbn [Z.eqb]. exists total. split; auto. split; auto. rewrite E, cc_zero; [ring|]. pose proof (vanishing_len (cone_factors l e (ct_cone c))). lia. }
  destruct (P3 E) as (Q1 & Q2 & Q3 & Q4). rewrite Q1. destruct (Z.eqb_spec (dot (pc_vertex (ct_cone c)) l) 0) as [|_]; [contradiction|].
  assert (LD : lowest_terms (ct_det c)) by (rewrite Q4; apply lowest_int).
  assert (VD : value (ct_det c) == inject_Z (cone_det n (ct_cone c))) by (rewrite Q4; unfold value; cbn [num den]; reflexivity).
  destruct (ct_zero c) eqn:Z0; cbn [negb].
  - destruct (PE Z0) as (R1 & R2 & R3). pose proof (pairs_of_cone l e c Q2 R1) as PR.
    assert (F0 : Forall (fun d => lp_pow d = 0%Z) (ct_dots c)).
    { clear - Q2. revert Q2. generalize (pc_rays (ct_cone c)). induction (ct_dots c) as [|d ds IH]; intros [|r rs]; cbn [map]; try discriminate; intros H; [constructor|]. injection H as _ H1 H2. constructor; eauto. }
    assert (NZ : zeros (ct_dots c) <> []).
    { symmetry in Q3. apply existsb_exists in Q3 as (r & I & J). apply Z.eqb_eq in J. assert (In (dot l r, dot e r) (map pair_of (ct_dots c))). { rewrite PR. apply in_map_iff. exists r. auto. }
      apply in_map_iff in H as (d & A & B). injection A as A _. assert (In d (zeros (ct_dots c))) as C by (apply filter_In; split; auto; apply Z.eqb_eq; congruence). intros K. rewrite K in C. exact C. }
    destruct (update_powers_ok (ct_dots c) F0 NZ) as (z & ds & U1 & U2 & U3 & U4 & U5 & U6 & U7). rewrite U1. cbn [bind].
    rewrite regular_pairs, PR in U7. rewrite vanishing_pairs, PR, zprod_product in U4.
    assert (ZL : length (zeros (ct_dots c)) = length (vanishing (cone_factors l e (ct_cone c)))) by (rewrite <- PR, <- vanishing_pairs, map_length; reflexivity).
    rewrite ZL in U5.
    assert (EZ : (lp_eps z <> 0)%Z).
    { rewrite U4, <- PR, <- vanishing_pairs. clear - R3. induction R3 as [|d ds Hd HR IH]; cbn [zeros filter map product fold_right]; [lia|].
      destruct (Z.eqb_spec (lp_const d) 0) as [C|C]; cbn [map product fold_right]; [|exact IH]. fold (zeros ds). fold (product (map lp_eps (zeros ds))).
      assert (lp_eps d <> 0)%Z by (intros D; apply Hd; auto). intros Z0. apply Z.mul_eq_0 in Z0 as [Z0|Z0]; [contradiction|apply IH, Z0]. }
    rewrite residue_num, Q1.
    destruct (residue_lawrence_ok n m (dot (pc_vertex (ct_cone c)) l) (lp_eps (ct_num c)) z ds) as (A & B & H1 & H2 & H3); auto.
    + congruence.
    + rewrite U5. pose proof (vanishing_len (cone_factors l e (ct_cone c))). lia.
    + apply Forall_forall. intros x Hx. destruct (Z.eq_dec (lp_const x) 0) as [C|C].
      * rewrite Forall_forall in U6. rewrite (U6 x Hx C). rewrite U5. pose proof (vanishing_len (cone_factors l e (ct_cone c))). lia.
      * pose proof (expand_len_bound ds x Hx C) as BX. rewrite (Permutation_length U7) in BX. rewrite U5.
        assert (LS : (length (regular (cone_factors l e (ct_cone c))) + length (vanishing (cone_factors l e (ct_cone c))) = n)%nat).
        { rewrite <- FL. unfold regular, vanishing. rewrite map_length. clear. induction (cone_factors l e (ct_cone c)) as [|f fs IH]; cbn; auto. destruct (fst f =? 0)%Z; cbn; lia. }
        lia.
    + rewrite H1. cbn [bind fst snd]. destruct (canonicalize_correct A B H2) as [L1 V1]. change (canonicalize (mkRat A B)) with (rat_make A B) in *.
      destruct (rat_mul_ok _ _ L1 LD) as [L2 V2]. destruct (rat_add_ok _ _ LT L2) as [L3 V3]. eexists. split; [reflexivity|]. split; auto.
      rewrite V3, V2, V1, VD, H3. unfold constant_coefficient. rewrite <- U4, U5, Nat2Z.id. rewrite R2.
      rewrite (divs2_perm _ _ _ U7 (expand_regular ds) _). ring.
  - assert (PR : map lp_const (ct_dots c) = map fst (cone_factors l e (ct_cone c))).
    { unfold cone_factors. rewrite map_map. cbn [fst]. transitivity (map fst (map (fun d => (lp_const d, lp_pow d)) (ct_dots c))); [rewrite map_map; reflexivity|]. rewrite Q2, map_map. reflexivity. }
    assert (RG : regular (cone_factors l e (ct_cone c)) = cone_factors l e (ct_cone c)).
    { unfold regular, cone_factors. clear - Q3. induction (pc_rays (ct_cone c)) as [|r rs IH]; cbn [map filter fst]; auto. cbn [existsb] in Q3. destruct (dot l r =? 0)%Z; [discriminate|]. cbn [negb orb] in *. now rewrite IH. }
    rewrite (fold_mul_product lp_const), PR, Z.mul_1_l.
    assert (PN : (product (map fst (cone_factors l e (ct_cone c))) <> 0)%Z).
    { pose proof (regular_nz (cone_factors l e (ct_cone c))) as R. rewrite RG in R. clear - R. induction R; cbn [map product fold_right]; [lia|]. fold (product (map fst l0)). nia. }
    destruct (canonicalize_correct (dot (pc_vertex (ct_cone c)) l ^ (Z.of_nat m + Z.of_nat n)) _ PN) as [L1 V1].
    change (canonicalize (mkRat ?a ?b)) with (rat_make a b) in *.
    destruct (rat_mul_ok _ _ L1 LD) as [L2 V2]. destruct (rat_add_ok _ _ LT L2) as [L3 V3]. eexists. split; [reflexivity|]. split; auto.
    rewrite V3, V2, V1, VD, (cc_regular _ _ _ _ RG). rewrite Nat2Z.inj_add. ring.
Qed.
Definition cone_of (c : pcone) : list Z * list (list Z) := (pc_vertex c, pc_rays c).
Lemma integrate_terms_ok n m l e : n <> O -> (1 <= m)%nat -> (Z.of_nat (m + n) < 2 ^ 20)%Z -> forall cs total,
  Forall (fun c => wfcone n (ct_cone c)) cs -> Forall (plain_ok n l) cs -> Forall (eps_ok e) cs -> lowest_terms total ->
  exists total', integrate_terms total (Z.of_nat m) (Z.of_nat n) cs = Ok total' /\ lowest_terms total' /\
    value total' == value total + cone_sum n m l e (map cone_of (map ct_cone cs)).
Proof.
  intros Hn Hm HB. induction cs as [|c cs IH]; intros total HW HP HE LT; cbn [integrate_terms].
  - exists total. split; auto. split; auto. cbn. ring.
  - destruct (integrate_term_ok n m l e c total Hn Hm HB (Forall_inv HW) (Forall_inv HP) (Forall_inv HE) LT) as (t & E & L & V). rewrite E. cbn [bind].
    destruct (IH t (Forall_inv_tail HW) (Forall_inv_tail HP) (Forall_inv_tail HE) L) as (t' & E' & L' & V'). exists t'. split; auto. split; auto.
    rewrite V', V. unfold cone_sum. cbn [map sum_over fold_right fst snd cone_of]. rewrite (dot_comm l (pc_vertex (ct_cone c))). unfold sum_over, cone_det, cone_factors, ray_matrix. ring.
Qed.
Definition sign (n : nat) : Q := if Nat.odd n then -1 else 1.
Lemma integrate_polytope_ok n m l e cs : n <> O -> (1 <= m)%nat -> (Z.of_nat (m + n) < 2 ^ 20)%Z ->
  Forall (fun c => wfcone n (ct_cone c)) cs -> Forall (plain_ok n l) cs -> Forall (eps_ok e) cs ->
  exists v, integrate_polytope (Z.of_nat m) n cs = Ok v /\ lowest_terms v /\ value v == sign n * cone_sum n m l e (map cone_of (map ct_cone cs)).
Proof.
  intros Hn Hm HB HW HP HE. unfold integrate_polytope.
  destruct (integrate_terms_ok n m l e Hn Hm HB cs (mkRat 0 1) HW HP HE (lowest_int 0)) as (t & E & L & V). rewrite E. cbn [bind].
  eexists. split; [reflexivity|]. unfold sign. change (value (mkRat 0 1)) with 0 in V. destruct (Nat.odd n).
  - destruct L as [L1 L2]. split; [split; cbn [num den]; auto; rewrite Z.mul_comm; change (-1 * num t)%Z with (- num t)%Z; now rewrite Z.gcd_opp_l|].
    rewrite <- (Qplus_0_l (cone_sum _ _ _ _ _)), <- V. rewrite !value_div by auto. cbn [num den]. rewrite inject_Z_mult. change (inject_Z (-1)) with (-1). field. apply injz_nz. lia.
  - split; auto. rewrite V. ring.
Qed.
Lemma blocked_not n l e c : plain_ok n l c -> eps_ok e c -> length (pc_rays (ct_cone c)) = n -> ~ blocked l e (ct_cone c).
Proof.
  intros (P1 & P2 & P3) PE W [B1 (r & B2 & B3 & B4)]. destruct (P3 B1) as (Q1 & Q2 & Q3 & Q4).
  assert (Z0 : ct_zero c = true) by (rewrite Q3; apply existsb_exists; exists r; split; auto; now apply Z.eqb_eq).
  destruct (PE Z0) as (R1 & R2 & R3). pose proof (pairs_of_cone l e c Q2 R1) as PR.
  assert (In (dot l r, dot e r) (map pair_of (ct_dots c))) as H. { rewrite PR. apply in_map_iff. exists r. auto. }
  apply in_map_iff in H as (d & A & B). injection A as A A'. rewrite Forall_forall in R3. apply (R3 d B). split; congruence.
Qed.
Definition form_value (n : nat) (cones : list (list Z * list (list Z))) (t : bterm rat) (e : list Z) : Q :=
  value (t_coef t) * (sign n * cone_sum n (Z.to_nat (t_deg t)) (t_exps t) e cones / inject_Z (zfact (n + Z.to_nat (t_deg t)))).
Definition term_ok (n : nat) (t : bterm rat) : Prop :=
  (1 <= t_deg t /\ t_deg t + Z.of_nat n < 2 ^ 20)%Z /\ lowest_terms (t_coef t) /\ length (t_exps t) = n.
Lemma forms_ok fuel n rs : n <> O -> forall ts cs k ans, Forall (term_ok n) ts -> Forall (fun c => wfcone n (ct_cone c)) cs -> Forall (fun c => length (ct_dots c) = n) cs -> lowest_terms ans ->
  (exists ans' es, lawrence_forms fuel n rs k n ts cs ans = Ok ans' /\ lowest_terms ans' /\
     Forall2 (fun t e => Forall (fun c => ~ blocked (t_exps t) e c) (map ct_cone cs)) ts es /\
     value ans' == value ans + sum_over (fun p => form_value n (map cone_of (map ct_cone cs)) (fst p) (snd p)) (combine ts es)) \/
  (lawrence_forms fuel n rs k n ts cs ans = Err OutOfFuel /\
   exists t k', In t ts /\ forall i, (i < fuel)%nat -> Exists (blocked (t_exps t) (moment n (Z.of_nat (rs (k' + i)%nat) mod 100) 1)) (map ct_cone cs)).
Proof.
  intros Hn. induction ts as [|t ts IH]; intros cs k ans HT HW HL LA; cbn [lawrence_forms].
  - left. exists ans, []. split; auto. split; auto. split; [constructor|]. cbn. ring.
  - destruct (Forall_inv HT) as ((T1 & T2) & T3 & T4).
    destruct (find_perturbation_ok n (t_exps t) n rs fuel k cs Hn Hn T4 HW HL) as [(cs' & k' & e & E & C & P & Q)|(E & B)].
    + rewrite E. cbn [bind fst snd].
      assert (HW' : Forall (fun c => wfcone n (ct_cone c)) cs').
      { apply Forall_map. rewrite C. apply Forall_map. exact HW. }
      destruct (integrate_polytope_ok n (Z.to_nat (t_deg t)) (t_exps t) e cs' Hn ltac:(lia) ltac:(lia) HW' P Q) as (v & E2 & L2 & V2).
      rewrite Z2Nat.id in E2 by lia. rewrite E2. cbn [bind].
      destruct (rat_mul_ok _ _ L2 T3) as [L3 V3]. rewrite fact_loop_fact.
      assert (DN : (den (rat_mul_fun v (t_coef t)) * zfact (n + Z.to_nat (t_deg t)) <> 0)%Z).
      { destruct L3 as [L3 _]. pose proof (zfact_pos (n + Z.to_nat (t_deg t))). nia. }
      replace (Z.to_nat (Z.of_nat n + t_deg t)) with (n + Z.to_nat (t_deg t))%nat by lia.
      destruct (canonicalize_correct (num (rat_mul_fun v (t_coef t))) _ DN) as [L4 V4].
      destruct (rat_add_ok _ _ LA L4) as [L5 V5].
      assert (HL' : Forall (fun c => length (ct_dots c) = n) cs') by (eapply Forall_impl; [|exact P]; intros c H; apply H).
      destruct (IH cs' k' _ (Forall_inv_tail HT) HW' HL' L5) as [(ans' & es & H1 & H2 & H3 & H4)|(H1 & t' & k'' & H2 & H3)].
      * left. exists ans', (e :: es). split; [exact H1|]. split; auto. rewrite C in H3, H4. split.
        { constructor; auto. rewrite <- C. apply Forall_map. rewrite Forall_forall in *. intros c Hc. apply (blocked_not n); auto. now apply HW'. }
        rewrite H4, V5, V4. cbn [combine sum_over fold_right fst snd]. unfold form_value at 2. rewrite <- C in *. clear H4.
        rewrite <- V2. assert (V6 : inject_Z (num (rat_mul_fun v (t_coef t))) / inject_Z (den (rat_mul_fun v (t_coef t)) * zfact (n + Z.to_nat (t_deg t))) == value v * value (t_coef t) / inject_Z (zfact (n + Z.to_nat (t_deg t)))).
        { rewrite <- V3. rewrite value_div by apply L3. rewrite inject_Z_mult. field. split; apply injz_nz; [pose proof (zfact_pos (n + Z.to_nat (t_deg t))); lia|destruct L3; lia]. }
        rewrite V6. unfold sum_over. field. apply injz_nz. pose proof (zfact_pos (n + Z.to_nat (t_deg t))). lia.
      * right. split; [exact H1|]. exists t', k''. rewrite C in H3. split; [now right|auto].
    + right. rewrite E. cbn [bind]. split; auto. exists t, k. split; [now left|auto].
Qed.
