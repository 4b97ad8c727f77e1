(** The cones of a simplex: the integral. *)
From Coq Require Import QArith Qfield Permutation.
From Verif Require Import Common Rational RationalSpec RationalProofs Trie Integ IntegSpec IntegMath IntegProofs IntegProofs2 IntegProofs3 IntegProofs4 IntegProofs5 DecompProofs DecompProofs4 InterpProofs2.
From Verif Require Import ZMat Det DetProofs PipedProofs3 Perturb PerturbSpec PerturbProofs PerturbProofs2 PerturbProofs3 PerturbProofs4 PerturbProofs5.
Open Scope Q_scope.

Lemma without_split {A} (i : nat) (l : list A) d : (i < length l)%nat -> l = firstn i l ++ nth i l d :: skipn (S i) l.
Proof. revert l; induction i as [|i IH]; intros [|a l] H; cbn in *; try lia; auto. f_equal. apply IH. lia. Qed.
Lemma map_nth_seq {A} (l : list A) d : map (fun i => nth i l d) (seq 0 (length l)) = l.
Proof. induction l as [|a l IH]; cbn [length seq map]; auto. rewrite <- seq_shift, map_map. cbn [nth]. now rewrite IH. Qed.
Definition generic (P : list (Z * Z)) : Prop :=
  forall i q, (i < length P)%nat -> fst (nth i P (0, 0)%Z) <> 0%Z -> In q (without i P) -> fst q = fst (nth i P (0, 0)%Z) -> snd q <> snd (nth i P (0, 0)%Z).
Lemma betas_nodup P a : a <> 0%Z -> generic P -> NoDup (betas a P).
Proof.
  intros Ha. unfold generic, without. intros G.
  assert (H : forall l1 l2, P = l1 ++ l2 -> NoDup (betas a l2)); [|apply (H [] P eq_refl)].
  intros l1 l2; revert l1; induction l2 as [|p l2 IH]; intros l1 E; [constructor|].
  unfold betas. cbn [filter]. pose proof (IH (l1 ++ [p]) ltac:(rewrite <- app_assoc; exact E)) as ND. destruct (Z.eqb_spec (fst p) a) as [F|F]; [|exact ND].
  cbn [map]. constructor; [|exact ND]. intros HI. apply in_map_iff in HI as (q & Q1 & Q2). apply filter_In in Q2 as [Q2 Q3]. apply Z.eqb_eq in Q3.
  assert (N : nth (length l1) P (0,0)%Z = p) by (rewrite E, app_nth2, Nat.sub_diag by lia; reflexivity).
  apply (G (length l1) q); rewrite ?N; try congruence.
  - rewrite E, app_length. cbn. lia.
  - apply in_app_iff. right. rewrite E. rewrite skipn_app, skipn_all2 by lia. replace (S (length l1) - length l1)%nat with 1%nat by lia. exact Q2.
Qed.
Lemma powlin0_low N j : (j < N)%nat -> powlin 0 N j == 0.
Proof. intros H. rewrite powlin_closed. rewrite Z.pow_0_l by lia. rewrite Z.mul_0_r. reflexivity. Qed.
Lemma divs_low cs F N : Forall (fun c => c <> 0%Z) cs -> (forall j, (j < N)%nat -> F j == 0) -> forall j, (j < N)%nat -> divs cs F j == 0.
Proof.
  intros R HF. induction R as [|c cs Hc HR IH]; cbn [divs fold_right]; auto. fold (divs cs F).
  intros j. induction j as [|j IHj]; intros Hj; cbn [divlin]; [rewrite IH by auto|rewrite IH, IHj by lia]; field; now apply injz_nz.
Qed.
Lemma simplex_sum P n m : length P = S n -> (1 <= m)%nat -> generic P ->
  qsum (fun i => constant_coefficient (fst (nth i P (0,0)%Z)) (snd (nth i P (0,0)%Z)) (m + n) (facet (nth i P (0,0)%Z) (without i P))) (seq 0 (S n)) == inject_Z (hsym (map fst P) m).
Proof.
  intros L Hm G. set (h := fun p => if (fst p =? 0)%Z then 0 else local (m + n) P p).
  rewrite (qsum_ext _ (fun i => h (nth i P (0,0)%Z))).
  - rewrite <- (qsum_map (fun i => nth i P (0,0)%Z) h). rewrite <- L, map_nth_seq.
    rewrite (qsum_group fst h P (nodup Z.eq_dec (map fst P)) (NoDup_nodup _ _)) by (intros a Ha; apply nodup_In, in_map, Ha).
    rewrite (qsum_ext _ (fun v => res v (map fst P) (powlin v (m + n)))).
    + fold (D (map fst P) (m + n)). destruct P as [|p P]; [discriminate|]. cbn [map]. rewrite residues_are_hsym. rewrite map_length. injection L as ->.
      destruct (Nat.ltb_spec (m + n) n); [lia|]. replace (m + n - n)%nat with m by lia. reflexivity.
    + intros a Ha. apply nodup_In in Ha. destruct (Z.eq_dec a 0) as [->|N].
      * unfold res. rewrite (divs_low _ _ (m + n)); [|apply others_nz|intros; now apply powlin0_low|].
        { apply qsum_zero. intros p Hp. apply filter_In in Hp as [_ Hp]. unfold h. now rewrite Hp. }
        pose proof (count_occ_bound Z.eq_dec 0%Z (map fst P)) as B. rewrite map_length in B. lia.
      * rewrite <- (group_residue (m + n) P a (betas_nodup P a N G) Ha). apply qsum_ext. intros p Hp. apply filter_In in Hp as [_ Hp]. apply Z.eqb_eq in Hp. unfold h. destruct (Z.eqb_spec (fst p) 0); [congruence|reflexivity].
  - intros i Hi. apply in_seq in Hi. unfold h. destruct (Z.eqb_spec (fst (nth i P (0,0)%Z)) 0) as [E|E].
    + rewrite E. apply cc_zero. pose proof (vanishing_len (facet (nth i P (0,0)%Z) (without i P))) as B. unfold facet in B at 2. rewrite map_length in B. unfold without in *. rewrite app_length, firstn_length, skipn_length in B. lia.
    + rewrite (without_split i P (0,0)%Z) at 5 by lia. unfold without. apply local_ok. intros q Hq. apply (G i); auto. lia.
Qed.
(** scaling and order of the factors *)
Definition scaled (t : Z * (Z * Z)) : Z * Z := (fst t * fst (snd t), fst t * snd (snd t))%Z.
Lemma over_scale k f F : (k <> 0)%Z -> (fst f <> 0)%Z -> over_factor f F ≡ (fun j => inject_Z k * over_factor (k * fst f, k * snd f)%Z F j).
Proof.
  intros Hk Hf j. pose proof (injz_nz k Hk). pose proof (injz_nz _ Hf). induction j as [|j IH]; cbn [over_factor fst snd]; [rewrite inject_Z_mult; field; auto|].
  rewrite IH. rewrite !inject_Z_mult. field. auto.
Qed.
Lemma cc_scale p q N ts : Forall (fun t => fst t <> 0%Z) ts -> constant_coefficient p q N (map snd ts) == inject_Z (product (map fst ts)) * constant_coefficient p q N (map scaled ts).
Proof.
  intros HT. unfold constant_coefficient.
  assert (H : exists K V, (K <> 0)%Z /\ (V <> 0)%Z /\ product (map fst ts) = (K * V)%Z /\ product (vanishing (map scaled ts)) = (V * product (vanishing (map snd ts)))%Z /\ length (vanishing (map scaled ts)) = length (vanishing (map snd ts)) /\
    over_factors (regular (map snd ts)) (binomial_series p q N) ≡ (fun j => inject_Z K * over_factors (regular (map scaled ts)) (binomial_series p q N) j)).
  { induction HT as [|[k [c e]] ts Hk HT (K & V & A1 & A2 & A3 & A4 & A5 & A6)]; cbn [map].
    - exists 1%Z, 1%Z. split; [lia|]. split; [lia|]. split; auto. split; auto. split; auto. intros j. cbn. change (inject_Z 1) with 1. ring.
    - cbn [fst] in Hk. unfold regular, vanishing. cbn [filter map scaled fst snd]. destruct (Z.eqb_spec c 0) as [->|C].
      + rewrite Z.mul_0_r. cbn [Z.eqb negb]. exists K, (k * V)%Z. split; auto. split; [nia|]. cbn [product fold_right map snd length]. fold (product (map fst ts)). rewrite A3. split; [ring|]. split; [|split; [f_equal; exact A5|exact A6]].
        fold (product (vanishing (map scaled ts))) (product (vanishing (map snd ts))). unfold vanishing, product in A4 |- *. rewrite A4. unfold scaled. cbn [fst snd]. ring.
      + destruct (Z.eqb_spec (k * c) 0); [nia|]. cbn [negb]. exists (k * K)%Z, V. split; [nia|]. split; auto. cbn [product fold_right]. fold (product (map fst ts)). rewrite A3. split; [ring|]. split; [exact A4|]. split; [exact A5|].
        cbn [over_factors fold_right]. eapply seq_trans; [apply (over_scale k (c, e)); auto|]. cbn [fst snd]. intros j. 
        assert (E : over_factor (k * c, k * e)%Z (fold_right over_factor (binomial_series p q N) (filter (fun f : Z * Z => negb (fst f =? 0)%Z) (map snd ts))) j ==
          inject_Z K * over_factor (k * c, k * e)%Z (fold_right over_factor (binomial_series p q N) (filter (fun f : Z * Z => negb (fst f =? 0)%Z) (map scaled ts))) j).
        { rewrite (div2_ext (k * c, k * e)%Z _ _ A6 j). apply (div2_scale (k * c, k * e)%Z). cbn. nia. }
        rewrite E, inject_Z_mult. unfold scaled at 2. cbn [fst snd]. ring. }
  destruct H as (K & V & A1 & A2 & A3 & A4 & A5 & A6). rewrite A3, A4, A5, (A6 _), !inject_Z_mult. pose proof (injz_nz V A2). pose proof (injz_nz K A1).
  destruct (Qeq_dec (inject_Z (product (vanishing (map snd ts)))) 0) as [E|E].
  - rewrite E. unfold Qdiv. rewrite Qmult_0_r. setoid_replace (/ 0) with 0 by reflexivity. ring.
  - field. auto.
Qed.
Lemma product_perm l l' : Permutation l l' -> product l = product l'.
Proof. induction 1; cbn [product fold_right]; auto; [fold (product l) (product l'); congruence|ring|congruence]. Qed.
Lemma cc_perm p q N fs fs' : Permutation fs fs' -> constant_coefficient p q N fs == constant_coefficient p q N fs'.
Proof.
  intros P. unfold constant_coefficient.
  assert (PV : Permutation (vanishing fs) (vanishing fs')) by (unfold vanishing; apply Permutation_map, filter_perm, P).
  rewrite (product_perm _ _ PV), (Permutation_length PV). rewrite (divs2_perm (regular fs) (regular fs') (binomial_series p q N) (filter_perm _ _ _ P) (regular_nz fs) _). reflexivity.
Qed.
(** determinants *)
Open Scope Z_scope.
Lemma zsum_pick n (f : nat -> Z) t : (t <= n)%nat -> f O = 0 -> zsum n (fun k => f (S k) * delta (S k) t) = f t.
Proof.
  intros Ht F0. destruct t as [|t].
  - rewrite F0. apply zsum_zero. intros i _. unfold delta. cbn. ring.
  - rewrite (zsum_single n _ t) by first [lia | (intros i _ Hi; unfold delta; destruct (Nat.eqb_spec (S i) (S t)); [lia|ring])]. unfold delta. rewrite Nat.eqb_refl. ring.
Qed.
Lemma edge_div vs vs' n : length vs = S n -> length vs' = S n -> (forall w, In w vs' -> In w vs) -> (det n (edge_matrix vs) | det n (edge_matrix vs')).
Proof.
  intros L L' H.
  assert (HX : forall i, (i <= n)%nat -> exists t, (t <= n)%nat /\ nth i vs' [] = nth t vs []).
  { intros i Hi. assert (HI : In (nth i vs' []) vs') by (apply nth_In; lia). apply H in HI. apply (In_nth _ _ []) in HI as (t & Ht & E). exists t. split; [lia|auto]. }
  assert (HU : exists u : nat -> nat, forall i, (i <= n)%nat -> (u i <= n)%nat /\ nth i vs' [] = nth (u i) vs []).
  { clear - HX. revert HX. generalize n at 1 3 as k. induction k as [|k IH]; intros HX.
    - destruct (HX O) as (t & Ht & E); [lia|]. exists (fun _ => t). intros i Hi. replace i with O by lia. auto.
    - destruct IH as (u & Hu); [intros i Hi; apply HX; lia|]. destruct (HX (S k)) as (t & Ht & E); [lia|]. exists (fun i => if (i =? S k)%nat then t else u i). intros i Hi. destruct (Nat.eqb_spec i (S k)) as [->|]; [auto|apply Hu; lia]. }
  destruct HU as (u & Hu). exists (det n (fun k i => delta (S k) (u (S i)) - delta (S k) (u O))). rewrite Z.mul_comm, <- det_mul. apply det_ext. intros j i Hj Hi. unfold mmul.
  rewrite (ZMat.zsum_ext n _ (fun k => edge_matrix vs j k * delta (S k) (u (S i)) + (-1) * (edge_matrix vs j k * delta (S k) (u O)))) by (intros; ring).
  rewrite zsum_add, zsum_scal. unfold edge_matrix at 2 3. pose proof (zsum_pick n (fun t => nth j (nth t vs []) 0 - nth j (nth 0 vs []) 0)) as ZP. cbv beta in ZP. rewrite !ZP by (try apply Hu; lia).
  unfold edge_matrix. destruct (Hu (S i)) as [_ ->]; [lia|]. destruct (Hu O) as [_ ->]; [lia|]. ring.
Qed.
Lemma edge_volume_perm vs vs' : Permutation vs vs' -> vs <> [] -> edge_volume vs = edge_volume vs'.
Proof.
  intros P N. unfold edge_volume. rewrite <- (Permutation_length P). destruct vs as [|v vs]; [congruence|]. remember (v :: vs) as ws. assert (L : length ws = S (length vs)) by (subst; reflexivity).
  assert (L' : length vs' = S (length vs)) by (rewrite <- (Permutation_length P); exact L). rewrite L. replace (S (length vs) - 1)%nat with (length vs) by lia. clear Heqws.
  apply Z.divide_antisym_nonneg; try apply Z.abs_nonneg; apply Z.divide_abs_l, Z.divide_abs_r; apply edge_div; auto; intros w; apply Permutation_in; auto using Permutation_sym.
Qed.
Lemma without_perm {A} i (l : list A) d : (i < length l)%nat -> Permutation (nth i l d :: without i l) l.
Proof. intros H. unfold without. etransitivity; [apply Permutation_middle|]. rewrite <- without_split by auto. reflexivity. Qed.
Lemma dot_edge g : forall l w s r, length w = length s -> length r = length s -> (forall k, nth k w 0 - nth k s 0 = g * nth k r 0) -> dot l w - dot l s = g * dot l r.
Proof.
  induction l as [|x l IH]; intros [|a w] [|b s] [|c r]; cbn [length dot]; intros; try discriminate; try lia.
  injection H as H. injection H0 as H0. pose proof (H1 O) as E. cbn [nth] in E. pose proof (IH w s r H H0 (fun k => H1 (S k))). nia.
Qed.
Lemma triples (s : list Z) rays ws :
  Forall2 (fun r w => length r = length s /\ exists g, 0 < g /\ forall k, nth k w 0 - nth k s 0 = g * nth k r 0) rays ws ->
  exists ts : list (Z * (list Z * list Z)), map (fun t => fst (snd t)) ts = rays /\ map (fun t => snd (snd t)) ts = ws /\
    Forall (fun t => 0 < fst t /\ length (fst (snd t)) = length s /\ forall k, nth k (snd (snd t)) 0 - nth k s 0 = fst t * nth k (fst (snd t)) 0) ts.
Proof.
  induction 1 as [|r w rays ws (HL & g & Hg & HK) HF (ts & A & B & C)]; [exists []; repeat split; constructor|].
  exists ((g, (r, w)) :: ts). cbn [map fst snd]. rewrite A, B. split; auto.
Qed.
Lemma product_neg {A} (f : A -> Z) ts : inject_Z (product (map (fun t => - f t) ts)) == sign (length ts) * inject_Z (product (map f ts)).
Proof.
  induction ts as [|t ts IH]; cbn [map product fold_right length]; [reflexivity|]. fold (product (map (fun t => - f t) ts)) (product (map f ts)).
  rewrite !inject_Z_mult, IH, inject_Z_opp. unfold sign. rewrite Nat.odd_succ, <- Nat.negb_odd. destruct (Nat.odd (length ts)); cbn [negb]; ring.
Qed.
Lemma product_pos {A} (f : A -> Z) ts : Forall (fun t => 0 < f t) ts -> 0 < product (map f ts).
Proof. induction 1; cbn [map product fold_right]; [lia|]. fold (product (map f l)). nia. Qed.
Lemma product_seq (l : list Z) : product l = fold_right Z.mul 1 (map (fun i => nth i l 0) (seq 0 (length l))).
Proof. now rewrite map_nth_seq. Qed.
Lemma tangent_term l e N n vs i c : length vs = S n -> Forall (fun v => length v = n) vs -> (i <= n)%nat -> tangent_cone vs i c ->
  (inject_Z (Z.abs (det n (ray_matrix (snd c)))) * constant_coefficient (dot l (fst c)) (dot e (fst c)) N (map (fun r => (dot l r, dot e r)) (snd c)) ==
   sign n * (inject_Z (edge_volume vs) *
     constant_coefficient (dot l (nth i vs [])) (dot e (nth i vs [])) N (facet (dot l (nth i vs []), dot e (nth i vs [])) (without i (map (fun v => (dot l v, dot e v)) vs)))))%Q.
Proof.
  intros L F Hi (C1 & ws & PW & F2). rewrite C1 in *. set (s := nth i vs []) in *.
  assert (PV : Permutation (s :: ws) vs). { rewrite PW. unfold s. apply without_perm. lia. }
  assert (LS : length s = n). { rewrite Forall_forall in F. apply F. apply nth_In. lia. }
  assert (LW : length ws = n). { apply Permutation_length in PV. cbn in PV. lia. }
  assert (FW : Forall (fun v => length v = n) ws). { rewrite Forall_forall in *. intros w Hw. apply F. apply (Permutation_in w PV). now right. }
  destruct (triples s (snd c) ws F2) as (ts & T1 & T2 & T3).
  assert (LT : length ts = n). { rewrite <- LW, <- T2, map_length. reflexivity. }
  assert (GP : 0 < product (map fst ts)). { apply product_pos. eapply Forall_impl; [|exact T3]. cbn. tauto. }
  assert (DV : Z.abs (det n (ray_matrix (snd c))) * product (map fst ts) = edge_volume vs).
  { rewrite <- (edge_volume_perm _ _ PV) by discriminate. unfold edge_volume. cbn [length]. replace (S (length ws) - 1)%nat with n by lia.
    rewrite <- (Z.abs_eq (product (map fst ts))) by lia. rewrite <- Z.abs_mul. f_equal.
    rewrite (product_seq (map fst ts)), map_length, LT, <- det_diag, <- det_mul. apply det_ext. intros j k Hj Hk. unfold mmul.
    rewrite (zsum_single n _ k) by first [lia | (intros k' _ Hk'; destruct (Nat.eqb_spec k' k); [lia|ring])].
    rewrite Nat.eqb_refl. unfold ray_matrix, edge_matrix. cbn [nth]. rewrite <- T1, <- T2.
    rewrite Forall_forall in T3. assert (HI : In (nth k ts (0, ([], []))) ts) by (apply nth_In; lia). destruct (T3 _ HI) as (_ & _ & HK). specialize (HK j).
    rewrite (nth_indep (map fst ts) 0 (fst (0, (@nil Z, @nil Z)))) by (rewrite map_length; lia). rewrite (map_nth fst).
    rewrite (nth_indep (map (fun t => fst (snd t)) ts) [] (fst (snd (0, (@nil Z, @nil Z))))) by (rewrite map_length; lia). rewrite (map_nth (fun t => fst (snd t))).
    rewrite (nth_indep (map (fun t => snd (snd t)) ts) [] (snd (snd (0, (@nil Z, @nil Z))))) by (rewrite map_length; lia). rewrite (map_nth (fun t => snd (snd t))). lia. }
  set (ts2 := map (fun t => (- fst t, (dot l (fst (snd t)), dot e (fst (snd t))))) ts).
  assert (E1 : map (fun r => (dot l r, dot e r)) (snd c) = map snd ts2) by (unfold ts2; rewrite <- T1, !map_map; reflexivity).
  assert (E2 : map scaled ts2 = facet (dot l s, dot e s) (map (fun v => (dot l v, dot e v)) ws)).
  { unfold ts2, facet. rewrite <- T2, !map_map. rewrite <- T2 in FW. clear - T3 FW LS. induction T3 as [|t ts (G1 & G2 & G3) HT IH]; cbn [map]; auto. rewrite IH by (exact (Forall_inv_tail FW)). f_equal. unfold scaled. cbn [fst snd].
    pose proof (Forall_inv FW) as W0. cbn [map] in W0. f_equal.
    - pose proof (dot_edge (fst t) l (snd (snd t)) s (fst (snd t))) as H. rewrite W0, LS, G2, LS in H. specialize (H eq_refl eq_refl G3). lia.
    - pose proof (dot_edge (fst t) e (snd (snd t)) s (fst (snd t))) as H. rewrite W0, LS, G2, LS in H. specialize (H eq_refl eq_refl G3). lia. }
  rewrite E1. rewrite cc_scale by (unfold ts2; apply Forall_map; eapply Forall_impl; [|exact T3]; cbn; intros t H; lia).
  rewrite E2. rewrite (cc_perm _ _ _ _ (facet (dot l s, dot e s) (without i (map (fun v => (dot l v, dot e v)) vs)))).
  - unfold ts2. rewrite map_map. cbn [fst]. rewrite (product_neg fst ts), LT. rewrite <- DV, inject_Z_mult. ring.
  - unfold facet. apply Permutation_map. unfold without. rewrite firstn_map, skipn_map, <- map_app. apply Permutation_map. exact PW.
Qed.
Lemma generic_of_unblocked l e n vs : length vs = S n -> Forall (fun v => length v = n) vs ->
  (forall i, (i <= n)%nat -> exists c, tangent_cone vs i c /\ ~ (dot (fst c) l <> 0 /\ exists r, In r (snd c) /\ dot l r = 0 /\ dot e r = 0)) ->
  generic (map (fun v => (dot l v, dot e v)) vs).
Proof.
  intros L F H i q Hi. rewrite map_length, L in Hi. destruct (H i) as (c & (C1 & ws & PW & F2) & HN); [lia|].
  rewrite (nth_indep _ (0, 0) (dot l [], dot e [])) by (rewrite map_length; lia). rewrite (map_nth (fun v => (dot l v, dot e v))). cbn [fst snd]. rewrite <- C1.
  intros N0 HI E1 E2. apply HN. split; [rewrite dot_comm; exact N0|].
  unfold without in HI. rewrite firstn_map, skipn_map, <- map_app in HI. apply in_map_iff in HI as (w & <- & HI). cbn [fst snd] in *. fold (without i vs) in HI.
  assert (FW : length w = n). { rewrite Forall_forall in F. apply F. unfold without in HI. apply in_app_iff in HI as [HI|HI]; [rewrite <- (firstn_skipn i vs); apply in_app_iff; auto|rewrite <- (firstn_skipn (S i) vs); apply in_app_iff; auto]. }
  assert (FC : length (fst c) = n). { rewrite C1. rewrite Forall_forall in F. apply F, nth_In. lia. }
  apply (Permutation_in w (Permutation_sym PW)) in HI. destruct (triples _ _ _ F2) as (ts & T1 & T2 & T3). rewrite <- T2 in HI. apply in_map_iff in HI as (t & <- & Ht).
  rewrite Forall_forall in T3. destruct (T3 t Ht) as (G1 & G2 & G3). exists (fst (snd t)). split; [rewrite <- T1; now apply (in_map (fun t => fst (snd t)))|].
  pose proof (dot_edge (fst t) l _ _ _ (eq_trans FW (eq_sym FC)) G2 G3). pose proof (dot_edge (fst t) e _ _ _ (eq_trans FW (eq_sym FC)) G2 G3). nia.
Qed.
Lemma sign_sq n : (sign n * sign n == 1)%Q.
Proof. unfold sign. destruct (Nat.odd n); reflexivity. Qed.
Lemma sum_Forall2 {A B} (R : A -> B -> Prop) (f : B -> Q) (g : A -> Q) la lb : Forall2 R la lb -> (forall a b, In a la -> R a b -> f b == g a)%Q -> (qsum f lb == qsum g la)%Q.
Proof. induction 1; cbn [qsum]; intros H1; [reflexivity|]. rewrite IHForall2 by (intros; apply H1; auto; now right). rewrite (H1 x y); [reflexivity|now left|auto]. Qed.
Lemma simplex_cone_sum n m l e vs idx cones : length vs = S n -> Forall (fun v => length v = n) vs -> (1 <= m)%nat ->
  Permutation idx (seq 0 (S n)) -> Forall2 (tangent_cone vs) idx cones ->
  Forall (fun c => ~ (dot (fst c) l <> 0 /\ exists r, In r (snd c) /\ dot l r = 0 /\ dot e r = 0)) cones ->
  (sign n * cone_sum n m l e cones == inject_Z (edge_volume vs * hsym (map (dot l) vs) m))%Q.
Proof.
  intros L F Hm PI F2 UB. unfold cone_sum. rewrite sum_over_qsum.
  set (P := map (fun v => (dot l v, dot e v)) vs).
  assert (GP : generic P).
  { apply (generic_of_unblocked l e n vs); auto. intros i Hi. assert (In i idx) as HI by (apply (Permutation_in i (Permutation_sym PI)), in_seq; lia).
    clear - F2 UB HI. induction F2 as [|j c idx cones H HF IH]; [destruct HI|]. destruct HI as [->|HI]; [exists c; split; auto; exact (Forall_inv UB)|]. apply IH; auto. exact (Forall_inv_tail UB). }
  rewrite (sum_Forall2 (tangent_cone vs) _ (fun i => sign n * (inject_Z (edge_volume vs) * constant_coefficient (fst (nth i P (0,0)%Z)) (snd (nth i P (0,0)%Z)) (m + n) (facet (nth i P (0,0)%Z) (without i P))))%Q idx cones F2).
  - rewrite (qsum_perm _ _ _ PI). rewrite qsum_scale, qsum_scale. rewrite Qmult_assoc, sign_sq, Qmult_1_l. rewrite simplex_sum; auto; [|unfold P; now rewrite map_length].
    unfold P. rewrite map_map. cbn [fst]. rewrite inject_Z_mult. reflexivity.
  - intros i c Hi HT. apply (Permutation_in i PI), in_seq in Hi. rewrite (tangent_term l e (m + n) n vs i c L F ltac:(lia) HT).
    unfold P. rewrite (nth_indep _ (0, 0) (dot l [], dot e [])) by (rewrite map_length; lia). rewrite (map_nth (fun v => (dot l v, dot e v))). cbn [fst snd]. reflexivity.
Qed.
(** ** Whole runs *)
Definition good_cones (n : nat) (cones : list pcone) : Prop := cones <> [] /\ Forall (wfcone n) cones.
Lemma lawrence_run fuel n rs cones ts : n <> O -> good_cones n cones -> ts <> [] -> Forall (term_ok n) ts ->
  (exists ans es, integral_lawrence fuel n rs cones ts = Ok ans /\ lowest_terms ans /\
     Forall2 (fun t e => Forall (fun c => ~ blocked (t_exps t) e c) cones) ts es /\
     (value ans == sum_over (fun p => form_value n (map cone_of cones) (fst p) (snd p)) (combine ts es))%Q) \/
  (integral_lawrence fuel n rs cones ts = Err OutOfFuel /\
   exists t k, In t ts /\ forall i, (i < fuel)%nat -> Exists (blocked (t_exps t) (moment n (Z.of_nat (rs (k + i)%nat) mod 100) 1)) cones).
Proof.
  intros Hn [NE HW] NT HT. unfold integral_lawrence. destruct ts as [|t0 ts0]; [congruence|]. remember (t0 :: ts0) as ts. unfold set_cones. destruct cones as [|c0 cones0] eqn:EC; [congruence|]. rewrite <- EC in *.
  assert (L0 : length (pc_rays c0) = n) by (rewrite EC in HW; apply (Forall_inv HW)). rewrite L0. cbn [bind fst snd].
  set (cs := map (fun c => mkCterm c false (repeat (mkLp 0 0 0) n) (mkLp 0 0 0) (mkRat 0 1)) cones).
  assert (CC : map ct_cone cs = cones) by (unfold cs; rewrite map_map; cbn; apply map_id).
  destruct (forms_ok fuel n rs Hn ts cs 0 (mkRat 0 1) HT) as [(ans & es & H1 & H2 & H3 & H4)|(H1 & t & k & H2 & H3)].
  - apply (proj1 (Forall_map ct_cone (wfcone n) cs)). rewrite CC. exact HW.
  - unfold cs. apply Forall_map. cbn. apply Forall_forall. intros c _. apply repeat_length.
  - apply lowest_int.
  - left. exists ans, es. rewrite CC in *. split; auto. split; auto. split; auto. rewrite H4. change (value (mkRat 0 1)) with 0%Q. ring.
  - right. split; auto. exists t, k. rewrite CC in H3. auto.
Qed.
Lemma lawrence_simplex fuel n rs vs idx cones ts ans : n <> O -> length vs = S n -> Forall (fun v => length v = n) vs -> good_cones n cones ->
  Permutation idx (seq 0 (S n)) -> Forall2 (tangent_cone vs) idx (map cone_of cones) -> ts <> [] -> Forall (term_ok n) ts ->
  integral_lawrence fuel n rs cones ts = Ok ans ->
  lowest_terms ans /\ (value ans == sum_over (fun t => value (t_coef t) * form_integral (edge_volume vs) n vs (t_exps t) (Z.to_nat (t_deg t))) ts)%Q.
Proof.
  intros Hn L F G PI F2 NT HT E. destruct (lawrence_run fuel n rs cones ts Hn G NT HT) as [(ans' & es & H1 & H2 & H3 & H4)|(H1 & _)]; [|congruence].
  rewrite E in H1. injection H1 as <-. split; auto. rewrite H4, !sum_over_qsum. clear - L F PI F2 HT H3. induction H3 as [|t e ts es H HF IH]; cbn [combine qsum fst snd]; [reflexivity|].
  rewrite IH by (exact (Forall_inv_tail HT)). destruct (Forall_inv HT) as ((T1 & T2) & T3 & T4). apply Qplus_comp; [|reflexivity]. unfold form_value, form_integral.
  rewrite (simplex_cone_sum n (Z.to_nat (t_deg t)) (t_exps t) e vs idx (map cone_of cones)); auto; [reflexivity|lia|].
  apply Forall_map. eapply Forall_impl; [|exact H]. unfold blocked, cone_of. cbn. auto.
Qed.
