(** One simplex: its volume and its integrals. *)
From Coq Require Import QArith Qabs Qfield Qpower Permutation.
From Verif Require Import Common Rational RationalSpec RationalProofs RatVec RatVecProofs Trie TrieProofs2 Integ IntegSpec IntegMath IntegProofs2 IntegProofs4 IntegProofs5 DecompProofs Series ZMat Det DetProofs PipedProofs PipedProofs3 PerturbSpec PerturbProofs6 Valuation ValuationSpec ValuationProofs.
Open Scope Z_scope.

Lemma factorial_ok n : factorial n = zfact n.
Proof.
  induction n as [|n IH]; [reflexivity|]. cbn [factorial zfact]. destruct (Nat.ltb_spec 1 (S n)); [now rewrite IH|]. destruct n; [reflexivity|lia].
Qed.
Lemma fold_mul_product {A} (f : A -> Z) l acc : fold_left (fun a r => a * f r) l acc = acc * product (map f l).
Proof. revert acc; induction l as [|x l IH]; intros acc; cbn [fold_left map product fold_right]; [ring|]. fold (product (map f l)). rewrite IH. ring. Qed.
Lemma map_nth_seq_f {A B} (f : A -> B) (l : list A) d : map (fun i => f (nth i l d)) (seq 0 (length l)) = map f l.
Proof. rewrite <- (map_map (fun i => nth i l d) f). now rewrite map_nth_seq. Qed.
Lemma Forall2_nth {A B} (R : A -> B -> Prop) la lb da db : Forall2 R la lb -> forall i, (i < length la)%nat -> R (nth i la da) (nth i lb db).
Proof. induction 1 as [|a b la lb H HF IH]; intros [|i] Hi; cbn in *; try lia; auto. apply IH. lia. Qed.
Lemma Forall2_length' {A B} (R : A -> B -> Prop) la lb : Forall2 R la lb -> length la = length lb.
Proof. induction 1; cbn; auto. Qed.
Lemma existsb_false {A} (f : A -> bool) l : Forall (fun x => f x = false) l -> existsb f l = false.
Proof. induction 1; cbn; auto. now rewrite H. Qed.

Lemma volume_determinant_ok n ps rays : cone_over n ps rays -> length ps = S n ->
  exists v, volume_determinant (S n) rays = Ok v /\ lowest_terms v /\ (value v == simplex_volume n ps)%Q.
Proof.
  intros HC HL. pose proof (Forall2_length' _ _ _ HC) as HL2. unfold volume_determinant.
  rewrite existsb_false. 2:{ clear - HC. induction HC as [|p r ps rays (H1 & H2 & _) HC IH]; constructor; auto. rewrite H2. apply Nat.ltb_irrefl. }
  rewrite <- HL2, HL, Nat.eqb_refl. cbn [negb]. replace (S n - 1)%nat with n by lia.
  rewrite (fold_mul_product (fun r => nth n r 0)), Z.mul_1_l, factorial_ok.
  set (a := fun i => nth n (nth i rays []) 0). set (w := fun i k => nth k (nth i rays []) 0).
  assert (HP : forall i, (i <= n)%nat -> 0 < a i). { intros i Hi. unfold a. apply (Forall2_nth _ _ _ [] [] HC i). lia. }
  pose proof (ray_det n w a HP) as RD.
  assert (EP : product (map (fun r => nth n r 0) rays) = product (map a (seq 0 (S n)))). { unfold a. rewrite <- HL, HL2. now rewrite (map_nth_seq_f (fun r => nth n r 0) rays []). }
  assert (ED : det (S n) w = det (S n) (fun i k => if (k <? n)%nat then w i k else a i)).
  { apply det_ext. intros i k Hi Hk. unfold w, a. destruct (Nat.ltb_spec k n); auto. replace k with n by lia. reflexivity. }
  rewrite ED, EP. set (K := product (map a (seq 0 (S n)))) in *.
  assert (KP : 0 < K). { unfold K. apply (product_pos a). apply Forall_forall. intros i Hi. apply in_seq in Hi. apply HP. lia. }
  pose proof (zfact_pos n) as FP.
  destruct (canonicalize_correct (Z.abs (det (S n) (fun i k => if (k <? n)%nat then w i k else a i))) (K * zfact n)) as [C1 C2]; [nia|].
  eexists. split; [reflexivity|]. split; [exact C1|]. unfold rat_make. rewrite C2, RD, inject_Z_mult. unfold simplex_volume, parallelepiped.
  rewrite (Qabs_wd _ (qdet n (fun i k => nth k (nth (S i) ps []) 0 - nth k (nth 0 ps []) 0)%Q)).
  - field. split; apply injz_nz; lia.
  - apply qdet_ext. intros i k Hi Hk. assert (F : forall i, (i <= n)%nat -> (inject_Z (w i k) / inject_Z (a i) == nth k (nth i ps []) 0)%Q).
    { intros j Hj. unfold w, a. destruct (Forall2_nth _ _ _ [] [] HC j) as (_ & _ & A1 & A2); [lia|]. rewrite (A2 k Hk). field. apply injz_nz. lia. }
    rewrite !F by lia. reflexivity.
Qed.

(** ** Scaling of the integrals *)
Lemma zsum_injf f n : (inject_Z (IntegSpec.zsum f n) == qsum (fun i => inject_Z (f i)) (seq 0 n))%Q.
Proof. induction n as [|n IH]; [reflexivity|]. cbn [IntegSpec.zsum]. rewrite inject_Z_plus, IH, qsum_seq_S. reflexivity. Qed.
Lemma qpow_inj k m : (inject_Z (k ^ Z.of_nat m) == inject_Z k ^ Z.of_nat m)%Q.
Proof. apply Zpower_Qpower. lia. Qed.
Lemma qpow_add (q : Q) a b : (q ^ Z.of_nat (a + b) == q ^ Z.of_nat a * q ^ Z.of_nat b)%Q.
Proof. induction a as [|a IH]; cbn [Nat.add]; [change (q ^ Z.of_nat 0)%Q with 1%Q; ring|]. rewrite !Qpow_S, IH. ring. Qed.
Lemma hsym_scale k xs ys : Forall2 (fun x y => (inject_Z x == inject_Z k * y)%Q) xs ys ->
  forall m, (inject_Z (hsym xs m) == inject_Z k ^ Z.of_nat m * qhsym ys m)%Q.
Proof.
  induction 1 as [|x y xs ys H HF IH]; intros m; cbn [hsym qhsym].
  - destruct m; [reflexivity|]. cbn [Nat.eqb]. change (inject_Z 0) with 0%Q. ring.
  - rewrite zsum_injf, sum_over_qsum, <- qsum_scale. apply qsum_ext. intros i Hi. apply in_seq in Hi. rewrite inject_Z_mult, IH, qpow_inj, H. rewrite Qmult_power.
    replace m with (i + (m - i))%nat at 3 by lia. rewrite qpow_add. ring.
Qed.
Lemma qdot_scale k l : forall u p, length u = length p -> (forall j, (j < length p)%nat -> (inject_Z (nth j u 0%Z) == inject_Z k * nth j p 0)%Q) -> (inject_Z (dot l u) == inject_Z k * qdot l p)%Q.
Proof.
  induction l as [|x l IH]; intros [|a u] [|b p] L H; cbn [dot qdot]; try discriminate; try (change (inject_Z 0) with 0%Q; ring).
  rewrite inject_Z_plus, inject_Z_mult. rewrite (IH u p); [|now injection L|intros j Hj; apply (H (S j)); cbn; lia]. pose proof (H 0%nat ltac:(cbn; lia)) as H0. cbn [nth] in H0. rewrite H0. ring.
Qed.
(** Vertices u_i = k * p_i. *)
Definition dilated (n : nat) (k : Z) (ps : list (list Q)) (us : list (list Z)) : Prop :=
  Forall2 (fun p u => length p = n /\ length u = n /\ forall j, (j < n)%nat -> (inject_Z (nth j u 0%Z) == inject_Z k * nth j p 0)%Q) ps us.
Definition edge_det (n : nat) (us : list (list Z)) : Z := Z.abs (det n (fun j i => nth i (nth (S j) us []) 0 - nth i (nth 0 us []) 0)).
Lemma parallelepiped_scale n k ps us : 0 < k -> dilated n k ps us -> length ps = S n ->
  (inject_Z (edge_det n us) == inject_Z k ^ Z.of_nat n * parallelepiped n ps)%Q.
Proof.
  intros Hk HD HL. unfold parallelepiped, edge_det. assert (N : ~ (inject_Z k == 0)%Q) by (apply injz_nz; lia).
  set (E := det n _). rewrite (Qabs_wd _ (inject_Z E / inject_Z (k ^ Z.of_nat n))%Q).
  - unfold Qdiv. rewrite Qabs_Qmult, (Qabs_pos (/ _)). 2:{ apply Qinv_le_0_compat. change 0%Q with (inject_Z 0). rewrite <- Zle_Qle. apply Z.pow_nonneg. lia. }
    change (Qabs (inject_Z E)) with (inject_Z (Z.abs E)). rewrite qpow_inj. field. apply Qpower_not_0. exact N.
  - unfold E. rewrite <- (qdet_inj n k Hk). apply qdet_ext. intros i j Hi Hj. rewrite injZ_sub.
    destruct (Forall2_nth _ _ _ [] [] HD (S i)) as (_ & _ & A); [lia|]. destruct (Forall2_nth _ _ _ [] [] HD 0%nat) as (_ & _ & B); [lia|]. rewrite (A j Hj), (B j Hj). field. exact N.
Qed.
Lemma form_integral_scale n k ps us l m : 0 < k -> dilated n k ps us -> length ps = S n ->
  (form_integral (edge_det n us) n us l m ==
   inject_Z k ^ Z.of_nat (n + m) * power_integral n ps l m)%Q.
Proof.
  intros Hk HD HL. unfold form_integral, power_integral. rewrite inject_Z_mult, (parallelepiped_scale n k ps us Hk HD HL).
  rewrite (hsym_scale k (map (dot l) us) (map (qdot l) ps)).
  - rewrite qpow_add. field. apply injz_nz. pose proof (zfact_pos (n + m)). lia.
  - clear HL. induction HD as [|p u ps us (H1 & H2 & H3) HD IH]; constructor; auto. apply qdot_scale; [congruence|]. now rewrite H1.
Qed.

(** ** Integration over one simplex of rays *)
Definition form_ok (n : nat) (t : bterm rat) : Prop :=
  (1 <= t_deg t /\ t_deg t + Z.of_nat n < 2 ^ 20 - 1) /\ lowest_terms (t_coef t) /\ ~ (value (t_coef t) == 0)%Q.
Lemma ray_simplex_ok n k ps rays : dilated n k ps (map (firstn n) rays) -> length ps = S n -> 
  exists s, ray_simplex (S n) n rays = Ok s /\ s_dim s = n /\ s_vertices s = map (firstn n) rays /\
    s_vol s = edge_det n (map (firstn n) rays).
Proof.
  intros HD HL. pose proof (Forall2_length' _ _ _ HD) as HL2. rewrite map_length in HL2. unfold ray_simplex. rewrite <- HL2, HL, Nat.ltb_irrefl, Nat.eqb_refl.
  rewrite Nat.add_1_r, Nat.eqb_refl. cbn [andb negb]. replace (S n - 1)%nat with n by lia. rewrite existsb_false.
  - eexists. split; [reflexivity|]. auto.
  - clear HL HL2. remember (map (firstn n) rays) as us. revert rays Hequs. induction HD as [|p u ps us (H1 & H2 & _) HD IH]; intros [|r rays] E; try discriminate; constructor.
    + injection E as -> _. rewrite firstn_length in H2. apply Nat.ltb_ge. lia.
    + injection E as _ E. now apply IH.
Qed.
Lemma simplex_integral_ok n k ps rays ts : (n < 1000)%nat -> 0 < k -> dilated n k ps (map (firstn n) rays) -> length ps = S n -> ts <> [] -> Forall (form_ok n) ts ->
  exists s a b, ray_simplex (S n) n rays = Ok s /\ integrate_forms ts s = Ok (a, b) /\ 0 < b /\
    (inject_Z a / inject_Z b == sum_over (fun t => value (t_coef t) * (inject_Z k ^ Z.of_nat (n + Z.to_nat (t_deg t)) * power_integral n ps (t_exps t) (Z.to_nat (t_deg t)))) ts)%Q.
Proof.
  intros Hn Hk HD HL NT HT. destruct (ray_simplex_ok n k ps rays HD HL) as (s & S1 & S2 & S3 & S4). exists s.
  destruct (integrate_exact s ts) as (a & b & I1 & I2 & I3); auto.
  - rewrite S2, S3, <- (Forall2_length' _ _ _ HD). exact HL.
  - now rewrite S2.
  - rewrite S2. eapply Forall_impl; [|exact HT]. intros t ((T1 & T2) & T3 & T4). split; [lia|]. split; [lia|]. split; [exact T3|]. intros (_ & T5 & _). lia.
  - exists a, b. split; auto. split; auto. split; auto. rewrite I3, !sum_over_qsum. apply qsum_ext. intros t Ht. rewrite S2, S3, S4. rewrite (form_integral_scale n k ps) by auto. reflexivity.
Qed.
