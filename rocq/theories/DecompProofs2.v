From Coq Require Import QArith Qfield Qpower Permutation Morphisms.
From Verif Require Import Common Rational RationalSpec RationalProofs Trie TrieSpec TrieProofs TrieProofs2 Integ IntegSpec IntegMath IntegProofs IntegProofs3 IntegProofs4 DecompProofs.
Open Scope Z_scope.

(** ** The odometer runs through [enum] *)
Fixpoint st_of (M p : list nat) : list (Z * Z) :=
  match M, p with m :: Ms, c :: ps => (Z.of_nat c, binom m c) :: st_of Ms ps | _, _ => [] end.
Definition adv (M p q : list nat) : Prop := advance (zs M) (st_of M p) = Ok (st_of M q).
Fixpoint chain (M : list nat) (p : list nat) (l : list (list nat)) : Prop :=
  match l with [] => True | q :: l' => adv M p q /\ chain M q l' end.
Lemma adv_inc m Ms c r : (S c <= m)%nat -> adv (m :: Ms) (c :: r) (S c :: r).
Proof.
  intros H. unfold adv. cbn [zs map st_of advance]. destruct (Z.ltb_spec (Z.of_nat m) (Z.of_nat c + 1)); [lia|].
  replace (Z.of_nat c + 1) with (Z.of_nat (S c)) by lia. f_equal. f_equal. f_equal.
  pose proof (binom_absorb m c) as B.
  replace (binom m c * (Z.of_nat m - Z.of_nat (S c) + 1)) with (binom m (S c) * Z.of_nat (S c)) by nia.
  apply Z.div_mul. lia.
Qed.
Lemma adv_carry m Ms r q : adv Ms r q -> adv (m :: Ms) (m :: r) (O :: q).
Proof.
  unfold adv. intros H. cbn [zs map st_of advance]. fold (zs Ms). destruct (Z.ltb_spec (Z.of_nat m) (Z.of_nat m + 1)); [|lia].
  rewrite H. cbn [bind]. rewrite binom_0. reflexivity.
Qed.
Lemma block_chain m Ms r rest : chain (m :: Ms) (m :: r) rest ->
  forall k c, (c + k = m)%nat -> chain (m :: Ms) (c :: r) (map (fun c => c :: r) (seq (S c) k) ++ rest).
Proof.
  intros H. induction k as [|k IH]; intros c E; cbn [seq map app chain].
  - replace c with m by lia. exact H.
  - split; [apply adv_inc; lia|]. apply IH. lia.
Qed.
Definition block (m : nat) (r : list nat) : list (list nat) := map (fun c => c :: r) (seq 0 (S m)).
Lemma blocks_chain m Ms : forall rs r, chain Ms r rs -> chain (m :: Ms) (O :: r) (map (fun c => c :: r) (seq 1 m) ++ flat_map (block m) rs).
Proof.
  induction rs as [|q rs IH]; intros r H; cbn [flat_map].
  - apply block_chain; [exact I|lia].
  - destruct H as [A C]. apply block_chain; [|lia]. unfold block at 1. cbn [seq map app chain]. split; [now apply adv_carry|]. now apply IH.
Qed.
Lemma enum_chain : forall M, exists l, enum M = map (fun _ => O) M :: l /\ chain M (map (fun _ => O) M) l /\ Forall (fun q => exists c, In c q /\ c <> O) l.
Proof.
  induction M as [|m Ms (l & E & C & F)]; cbn [enum map].
  - exists []. repeat split; constructor.
  - rewrite E. cbn [flat_map seq map app]. eexists. split; [reflexivity|]. split; [now apply blocks_chain|].
    apply Forall_app. split.
    + apply Forall_forall. intros q Hq. apply in_map_iff in Hq as (c & <- & Hc). apply in_seq in Hc. exists c. split; [now left|lia].
    + apply Forall_forall. intros q Hq. apply in_flat_map in Hq as (r & Hr & Hq). rewrite Forall_forall in F. destruct (F r Hr) as (c & Hc & Nc).
      change (In q (map (fun c0 => c0 :: r) (seq 0 (S m)))) in Hq. apply in_map_iff in Hq as (c0 & <- & _). exists c. split; [now right|auto].
Qed.
Lemma enum_bounds : forall M p, In p (enum M) -> Forall2 (fun m c => (c <= m)%nat) M p.
Proof.
  induction M as [|m Ms IH]; cbn [enum]; intros p H.
  - destruct H as [<-|[]]. constructor.
  - apply in_flat_map in H as (r & Hr & H). apply in_map_iff in H as (c & <- & Hc). apply in_seq in Hc. constructor; [lia|]. now apply IH.
Qed.
Lemma enum_length M : Z.of_nat (length (enum M)) = fold_left (fun a e => a * (e + 1)) (zs M) 1.
Proof.
  assert (G : forall l a, fold_left (fun a e => a * (e + 1)) l a = a * fold_right (fun e b => (e + 1) * b) 1 l).
  { induction l as [|e l IH]; intros a; cbn [fold_left fold_right]; [lia|]. rewrite IH. ring. }
  rewrite G, Z.mul_1_l. induction M as [|m Ms IH]; [reflexivity|].
  cbn [enum zs map fold_right]. fold (zs Ms). rewrite <- IH.
  assert (L : forall l, length (flat_map (fun r => map (fun c : nat => c :: r) (seq 0 (S m))) l) = (S m * length l)%nat).
  { induction l as [|r l IHl]; cbn [flat_map length]; [lia|]. rewrite app_length, map_length, seq_length, IHl. lia. }
  rewrite L. lia.
Qed.
Lemma fold_add_total : forall M a, fold_left Z.add (zs M) a = a + Z.of_nat (total M).
Proof. induction M as [|m Ms IH]; intros a; cbn [zs map fold_left total fold_right]; [lia|]. fold (zs Ms) (total Ms). rewrite IH. lia. Qed.
Lemma fold_sub_total : forall M a, fold_left Z.sub (zs M) a = a - Z.of_nat (total M).
Proof. induction M as [|m Ms IH]; intros a; cbn [zs map fold_left total fold_right]; [lia|]. fold (zs Ms) (total Ms). rewrite IH. lia. Qed.

(** ** One form *)
Lemma canon_pos n d : 0 < d -> lowest_terms (canonicalize (mkRat n d)) /\ (value (canonicalize (mkRat n d)) == inject_Z n / inject_Z d)%Q.
Proof. intros H. apply canonicalize_correct. lia. Qed.
Lemma rat_mul_z_ok a z : lowest_terms a -> lowest_terms (rat_mul_z a z) /\ (value (rat_mul_z a z) == value a * inject_Z z)%Q.
Proof.
  intros [D G]. unfold rat_mul_z. destruct (canon_pos (num a * z) (den a) D) as [A B]. split; auto. rewrite B, (value_div a D), inject_Z_mult. field. apply injz_nz. lia.
Qed.
Lemma rat_mul_ok a b : lowest_terms a -> lowest_terms b -> lowest_terms (rat_mul_fun a b) /\ (value (rat_mul_fun a b) == value a * value b)%Q.
Proof.
  intros [D G] [D' G']. unfold rat_mul_fun. destruct (canon_pos (num a * num b) (den a * den b)) as [A B]; [lia|]. split; auto.
  rewrite B, (value_div a D), (value_div b D'), !inject_Z_mult. field. split; apply injz_nz; lia.
Qed.
Fixpoint binoms (M p : list nat) : Z := match M, p with m :: Ms, c :: ps => binom m c * binoms Ms ps | _, _ => 1 end.
Lemma fold_binoms : forall M p r, length p = length M -> lowest_terms r ->
  lowest_terms (fold_left (fun r cb => rat_mul_z r (snd cb)) (st_of M p) r) /\
  (value (fold_left (fun r cb => rat_mul_z r (snd cb)) (st_of M p) r) == value r * inject_Z (binoms M p))%Q.
Proof.
  induction M as [|m Ms IH]; intros [|c ps] r L R; cbn [length] in L; try discriminate; cbn [st_of fold_left binoms].
  - split; auto. change (inject_Z 1) with 1%Q. ring.
  - destruct (rat_mul_z_ok r (binom m c) R) as [A B]. cbn [snd]. destruct (IH ps (rat_mul_z r (binom m c)) ltac:(lia) A) as [C E]. split; auto.
    rewrite E, B, inject_Z_mult. ring.
Qed.
Lemma st_of_fst : forall M p, length p = length M -> map fst (st_of M p) = zs p.
Proof. induction M as [|m Ms IH]; intros [|c ps] L; cbn [length] in L; try discriminate; cbn [st_of map zs fst]; auto. f_equal. apply IH. lia. Qed.
Lemma wts_binoms : forall M p, Forall2 (fun m c => (c <= m)%nat) M p ->
  (total p <= total M)%nat /\ wts M p = sgn (total M - total p) * binoms M p.
Proof.
  induction 1 as [|m c Ms ps H F [IH1 IH2]]; cbn [total fold_right wts binoms]; [split; [lia|reflexivity]|].
  fold (total Ms) (total ps). split; [lia|]. rewrite IH2. unfold wt.
  replace (m + total Ms - (c + total ps))%nat with ((m - c) + (total Ms - total ps))%nat by lia.
  assert (S : forall a b, sgn (a + b) = sgn a * sgn b).
  { clear. intros a b. induction a as [|a IH]; cbn [Nat.add]; [destruct (sgn b); reflexivity|]. rewrite !sgn_S, IH. ring. }
  rewrite S. ring.
Qed.
Lemma fold_gcd_ok : forall l a, 0 <= a -> let g := fold_left Z.gcd l a in 0 <= g /\ (g | a) /\ Forall (fun x => (g | x)) l.
Proof.
  induction l as [|x l IH]; intros a Ha; cbn [fold_left]; cbv zeta.
  - split; auto. split; [apply Z.divide_refl|constructor].
  - destruct (IH (Z.gcd a x) (Z.gcd_nonneg a x)) as (A & B & C). cbv zeta in *. split; auto.
    split; [eapply Z.divide_trans; [exact B|apply Z.gcd_divide_l]|]. constructor; auto. eapply Z.divide_trans; [exact B|apply Z.gcd_divide_r].
Qed.
Lemma qdot_scale g : g <> 0 -> forall p x, Forall (fun a => (g | a)) p -> (qdot p x == inject_Z g * qdot (map (fun a => Z.quot a g) p) x)%Q.
Proof.
  intros Hg. induction p as [|a p IH]; intros [|y x] F; cbn [qdot map]; try ring.
  rewrite (IH x (Forall_inv_tail F)). pose proof (Forall_inv F) as [q E]. cbv beta in E. rewrite E, Z.quot_mul by auto. rewrite inject_Z_mult. ring.
Qed.
Lemma binom_pos : forall n k, (k <= n)%nat -> 0 < binom n k.
Proof.
  induction n as [|n IH]; intros [|k] H; cbn [binom]; try lia. pose proof (IH k ltac:(lia)). destruct (Nat.eq_dec k n) as [->|]; [rewrite (binom_out n (S n)) by lia; lia|].
  pose proof (IH (S k) ltac:(lia)). lia.
Qed.
Lemma binoms_pos : forall M p, Forall2 (fun m c => (c <= m)%nat) M p -> 0 < binoms M p.
Proof. induction 1 as [|m c Ms ps H F IH]; cbn [binoms]; [lia|]. pose proof (binom_pos m c H). lia. Qed.
Lemma rem2_sgn k : (Z.rem (Z.of_nat k) 2 =? 1) = Nat.odd k.
Proof.
  rewrite Z.rem_mod_nonneg by lia. rewrite <- (Nat2Z.id k) at 2. destruct (Nat.Even_or_Odd k) as [[j ->]|[j ->]].
  - rewrite Nat2Z.id. rewrite Nat2Z.inj_mul. rewrite Z.mul_comm, Z.mod_mul by lia. rewrite Nat.odd_mul. reflexivity.
  - rewrite Nat2Z.id. rewrite Nat2Z.inj_add, Nat2Z.inj_mul. replace (Z.of_nat 2 * Z.of_nat j + Z.of_nat 1) with (1 + Z.of_nat j * 2) by lia.
    rewrite Z.mod_add by lia. rewrite Nat.odd_add, Nat.odd_mul. reflexivity.
Qed.

Lemma F2_length {A B} (R : A -> B -> Prop) l r : Forall2 R l r -> length l = length r.
Proof. induction 1; cbn; congruence. Qed.
Lemma form_of_ok M p coef : Forall2 (fun m c => (c <= m)%nat) M p -> (exists c, In c p /\ c <> O) -> lowest_terms coef ->
  let f := form_of (st_of M p) (Z.of_nat (total M)) coef in
  lowest_terms (fst f) /\ length (snd f) = length M /\ (~ (value coef == 0)%Q -> ~ (value (fst f) == 0)%Q) /\
  forall x, (value (fst f) * qdot (snd f) x ^ Z.of_nat (total M) == value coef * (inject_Z (wts M p) * qdot (zs p) x ^ Z.of_nat (total M)))%Q.
Proof.
  intros F2 (cz & Hin & Hnz) LC. pose proof (F2_length _ _ _ F2) as LEN. destruct M as [|m Ms]; [inversion F2; subst; destruct Hin|].
  destruct p as [|c ps]; [destruct Hin|]. cbv zeta. unfold form_of. rewrite st_of_fst by auto.
  destruct (wts_binoms _ _ F2) as [LE WB]. rewrite fold_sub_total.
  set (N := total (m :: Ms)) in *. set (k := total (c :: ps)) in *. replace (Z.of_nat N - Z.of_nat k) with (Z.of_nat (N - k)) by lia. rewrite rem2_sgn.
  cbn [st_of tl hd snd fold_left]. cbn [length] in LEN.
  assert (R0 : lowest_terms (mkRat (binom m c) 1)) by apply lowest_int.
  destruct (fold_binoms Ms ps _ ltac:(lia) R0) as [A1 A2]. set (t1 := fold_left _ (st_of Ms ps) _) in *.
  destruct (rat_mul_ok t1 coef A1 LC) as [B1 B2]. set (t2 := rat_mul_fun t1 coef) in *.
  set (t3 := if Nat.odd (N - k) then rat_mul_z t2 (-1) else t2).
  assert (C : lowest_terms t3 /\ (value t3 == value coef * inject_Z (wts (m :: Ms) (c :: ps)))%Q).
  { rewrite WB. cbn [binoms]. assert (V0 : (value (mkRat (binom m c) 1) == inject_Z (binom m c))%Q) by (rewrite value_div by (cbn; lia); cbn [num den]; change (inject_Z 1) with 1%Q; field).
    unfold t3, sgn. destruct (Nat.odd (N - k)).
    - destruct (rat_mul_z_ok t2 (-1) B1) as [C1 C2]. split; auto. rewrite C2, B2, A2, V0, !inject_Z_mult. ring.
    - split; auto. rewrite B2, A2, V0, !inject_Z_mult. change (inject_Z 1) with 1%Q. ring. }
  destruct C as [C1 C2].
  assert (WN : wts (m :: Ms) (c :: ps) <> 0).
  { rewrite WB. pose proof (binoms_pos _ _ F2). unfold sgn. destruct (Nat.odd (N - k)); lia. }
  cbn [zs map tl hd]. change (map Z.of_nat ps) with (zs ps). set (g := fold_left Z.gcd (zs ps) (Z.of_nat c)).
  destruct (fold_gcd_ok (zs ps) (Z.of_nat c) ltac:(lia)) as (G1 & G2 & G3). cbv zeta in *. fold g in G1, G2, G3.
  assert (G0 : g <> 0).
  { intros E. rewrite E in *. destruct Hin as [->|Hin].
    - apply Z.divide_0_l in G2. lia.
    - rewrite Forall_forall in G3. specialize (G3 (Z.of_nat cz) (in_map Z.of_nat ps cz Hin)). apply Z.divide_0_l in G3. lia. }
  destruct (Z.eqb_spec g 1) as [E1|E1]; cbn [negb fst snd].
  - split; [exact C1|]. split; [cbn [length zs map]; unfold zs; rewrite map_length; lia|]. split.
    + intros HC H. apply HC. rewrite C2 in H. apply Qmult_integral in H as [H|H]; [exact H|]. exfalso. revert H. now apply injz_nz.
    + intros x. cbn [zs map]. rewrite C2. ring.
  - destruct (rat_mul_z_ok t3 (g ^ Z.of_nat N) C1) as [D1 D2]. split; [exact D1|]. split; [cbn [length map]; unfold zs; rewrite !map_length; lia|]. split.
    + intros HC H. rewrite D2 in H. apply Qmult_integral in H as [H|H].
      * apply HC. rewrite C2 in H. apply Qmult_integral in H as [H|H]; [exact H|]. exfalso. revert H. now apply injz_nz.
      * revert H. apply injz_nz. apply Z.pow_nonzero; lia.
    + intros x. rewrite D2, C2.
      assert (QS : (qdot (Z.of_nat c :: zs ps) x == inject_Z g * qdot (map (fun a => Z.quot a g) (Z.of_nat c :: zs ps)) x)%Q) by (apply qdot_scale; auto; constructor; auto).
      cbn [map] in QS. cbn [zs map]. fold (zs ps). rewrite QS, Qmult_power. rewrite (Qpower_inject g N). ring.
Qed.
