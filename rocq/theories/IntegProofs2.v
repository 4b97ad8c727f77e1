From Coq Require Import QArith Qfield Permutation.
From Verif Require Import Common Rational RationalSpec RationalProofs Trie TrieSpec TrieProofs TrieProofs2 Integ IntegSpec IntegMath IntegProofs.
Open Scope Q_scope.

Fixpoint qn (f : nat -> Q) (n : nat) : Q := match n with O => 0 | S n' => qn f n' + f n' end.
Lemma qn_ext f g n : (forall i, (i < n)%nat -> f i == g i) -> qn f n == qn g n.
Proof. induction n; cbn [qn]; intros H; [reflexivity|]. rewrite IHn, (H n) by auto. reflexivity. Qed.
Lemma qn_add f g n : qn (fun i => f i + g i) n == qn f n + qn g n.
Proof. induction n; cbn [qn]; [ring|]. rewrite IHn. ring. Qed.
Lemma qn_scale c f n : qn (fun i => c * f i) n == c * qn f n.
Proof. induction n; cbn [qn]; [ring|]. rewrite IHn. ring. Qed.
Lemma qn_zero f n : (forall i, (i < n)%nat -> f i == 0) -> qn f n == 0.
Proof. induction n; cbn [qn]; intros H; [reflexivity|]. rewrite IHn, (H n) by auto. ring. Qed.
Lemma qn_split f n m : (n <= m)%nat -> (forall i, (n <= i < m)%nat -> f i == 0) -> qn f m == qn f n.
Proof.
  induction 1 as [|m H IH]; intros Hz; [reflexivity|]. cbn [qn]. rewrite IH by (intros; apply Hz; lia). rewrite (Hz m) by lia. ring.
Qed.

Definition conv (F G : series) : series := fun j => qn (fun i => F i * G (j - i)%nat) (S j).
Lemma conv_ext F F' G G' : F ≡ F' -> G ≡ G' -> conv F G ≡ conv F' G'.
Proof. unfold seq_eq. intros H H0 j. unfold conv. apply qn_ext. intros i _. rewrite (H i), (H0 (j - i)%nat). reflexivity. Qed.
Lemma conv_mullin c F G : conv F (mullin c G) ≡ mullin c (conv F G).
Proof.
  intros [|k]; unfold conv.
  - cbn [qn mullin Nat.sub]. ring.
  - cbn [mullin]. change (qn (fun i => F i * G (S k - i)%nat) (S (S k))) with (qn (fun i => F i * G (S k - i)%nat) (S k) + F (S k) * G (S k - S k)%nat).
    change (qn (fun i => F i * mullin c G (S k - i)%nat) (S (S k))) with (qn (fun i => F i * mullin c G (S k - i)%nat) (S k) + F (S k) * mullin c G (S k - S k)%nat).
    rewrite (qn_ext _ (fun i => c * (F i * G (S k - i)%nat) + F i * G (k - i)%nat)).
    + rewrite qn_add, qn_scale, Nat.sub_diag. cbn [mullin]. ring.
    + intros i Hi. replace (S k - i)%nat with (S (k - i)) by lia. cbn [mullin]. ring.
Qed.
Lemma conv_one F : conv F one ≡ F.
Proof.
  intros j. unfold conv. cbn [qn]. rewrite Nat.sub_diag. cbn [one]. rewrite qn_zero; [ring|].
  intros i Hi. destruct (j - i)%nat eqn:E; [lia|]. cbn [one]. ring.
Qed.
Lemma conv_divlin c F G : ~ c == 0 -> conv F (divlin c G) ≡ divlin c (conv F G).
Proof.
  intros H. apply (mul_inj c); auto. eapply seq_trans; [apply seq_sym, conv_mullin|].
  eapply seq_trans; [apply conv_ext; [apply seq_refl|apply mul_div; auto]|]. apply seq_sym. now apply mul_div.
Qed.
Lemma iter_ext n c F G : F ≡ G -> iter n (divlin c) F ≡ iter n (divlin c) G.
Proof. intros H. induction n; cbn [iter]; auto. now apply divlin_ext. Qed.
Lemma conv_iter c n F : ~ c == 0 -> conv F (iter n (divlin c) one) ≡ iter n (divlin c) F.
Proof.
  intros H. induction n as [|n IH]; cbn [iter]; [apply conv_one|]. eapply seq_trans; [apply conv_divlin; auto|]. now apply divlin_ext.
Qed.

(** closed forms *)
Lemma injpow c n : inject_Z (c ^ Z.of_nat (S n)) == inject_Z c * inject_Z (c ^ Z.of_nat n).
Proof. rewrite Nat2Z.inj_succ, Z.pow_succ_r, inject_Z_mult by lia. reflexivity. Qed.
Lemma zpow_nz c n : (c <> 0)%Z -> ~ inject_Z (c ^ Z.of_nat n) == 0.
Proof. intros H. apply injz_nz. apply Z.pow_nonzero; lia. Qed.
Lemma iter_div_closed c : (c <> 0)%Z -> forall n j,
  iter (S n) (divlin (inject_Z c)) one j == inject_Z ((-1) ^ Z.of_nat j * binom (n + j) j) / inject_Z (c ^ Z.of_nat (S n + j)).
Proof.
  intros H. pose proof (injz_nz c H) as HQ. induction n as [|n IHn].
  - induction j as [|j IHj].
    + cbn [iter divlin one]. change (c ^ Z.of_nat (1 + 0))%Z with (c ^ 1)%Z. rewrite Z.pow_1_r. change (inject_Z ((-1) ^ Z.of_nat 0 * binom (0 + 0) 0)) with 1. reflexivity.
    + cbn [iter] in *. cbn [divlin]. rewrite IHj. cbn [one Nat.add]. rewrite !binom_diag, !Z.mul_1_r.
      rewrite (injpow (-1) j), !(injpow c). field. split; [|auto]. apply zpow_nz; auto.
  - change (iter (S (S n)) (divlin (inject_Z c)) one) with (divlin (inject_Z c) (iter (S n) (divlin (inject_Z c)) one)).
    induction j as [|j IHj].
    + cbn [divlin]. rewrite IHn, !binom_0. rewrite !Nat.add_0_r, !(injpow c). change ((-1) ^ Z.of_nat 0 * 1)%Z with 1%Z. field. split; [|auto]. apply zpow_nz; auto.
    + cbn [divlin]. rewrite IHj, IHn. replace (n + S j)%nat with (S n + j)%nat by lia.
      replace (S (S n) + S j)%nat with (S (S (S n + j))) by lia. replace (S n + S j)%nat with (S (S n + j)) by lia.
      replace (S (S n) + j)%nat with (S (S n + j)) by lia.
      change (binom (S (S n + j)) (S j)) with (binom (S n + j) j + binom (S n + j) (S j))%Z.
      rewrite !inject_Z_mult, inject_Z_plus, !(injpow (-1) j), !(injpow c). field. split; [|auto]. apply zpow_nz; auto.
Qed.
Lemma scaled_closed c n K j : (c <> 0)%Z -> (j <= K)%nat ->
  inject_Z (c ^ Z.of_nat (S n + K)) * iter (S n) (divlin (inject_Z c)) one j == inject_Z ((-1) ^ Z.of_nat j * (binom (n + j) j * c ^ Z.of_nat (K - j))).
Proof.
  intros H Hj. rewrite iter_div_closed by auto. replace (S n + K)%nat with ((S n + j) + (K - j))%nat by lia.
  rewrite Nat2Z.inj_add, Z.pow_add_r, !inject_Z_mult by lia. field. apply zpow_nz; auto.
Qed.
Lemma powlin_closed p N : forall j, powlin p N j == inject_Z (binom N j * p ^ Z.of_nat (N - j)).
Proof.
  unfold powlin. induction N as [|N IH]; intros j.
  - cbn [iter]. destruct j; reflexivity.
  - cbn [iter]. destruct j as [|j]; cbn [mullin].
    + rewrite IH, !binom_0, !Nat.sub_0_r, !Z.mul_1_l. rewrite injpow. reflexivity.
    + rewrite (IH (S j)), (IH j). cbn [binom Nat.sub]. rewrite Z.mul_add_distr_r, inject_Z_plus, !inject_Z_mult.
      destruct (le_lt_dec N j) as [L|L].
      * rewrite (binom_out N (S j)) by lia. change (inject_Z 0) with 0. ring.
      * replace (N - j)%nat with (S (N - S j)) by lia. rewrite injpow. ring.
Qed.

(** ** Univariate polynomials in tries *)
Definition sp (n : nat) (A : series) : poly := map (fun j => (A j, [Z.of_nat j])) (seq 0 n).
Lemma sp_S n A : sp (S n) A = sp n A ++ [(A n, [Z.of_nat n])].
Proof. unfold sp. rewrite seq_S, map_app. reflexivity. Qed.
Lemma wsum_app g p q : wsum g (p ++ q) == wsum g p + wsum g q.
Proof. induction p as [|a p IH]; cbn [app wsum]; [ring|]. rewrite IH. ring. Qed.
Lemma wsum_sp g A n : wsum g (sp n A) == qn (fun j => A j * g [Z.of_nat j]) n.
Proof. induction n as [|n IH]; [reflexivity|]. rewrite sp_S, wsum_app, IH. cbn [wsum qn fst snd]. ring. Qed.
Lemma coef_sp A n x : coef (sp n A) x == match x with [z] => if ((0 <=? z)%Z && (z <? Z.of_nat n)%Z)%bool then A (Z.to_nat z) else 0 | _ => 0 end.
Proof.
  induction n as [|n IH].
  - cbn [sp seq map coef]. destruct x as [|z [|]]; try reflexivity. destruct (Z.leb_spec 0 z), (Z.ltb_spec z (Z.of_nat 0)); cbn [andb]; try reflexivity; lia.
  - rewrite sp_S, coef_app, IH. cbn [coef fst snd same_exps]. destruct x as [|z [|z2 x]].
    + ring.
    + destruct (Z.eqb_spec (Z.of_nat n) z) as [<-|Hne]; cbn [andb].
      * rewrite Nat2Z.id. destruct (Z.leb_spec 0 (Z.of_nat n)); [|lia]. destruct (Z.ltb_spec (Z.of_nat n) (Z.of_nat n)); [lia|].
        destruct (Z.ltb_spec (Z.of_nat n) (Z.of_nat (S n))); [|lia]. cbn [andb]. ring.
      * destruct (Z.leb_spec 0 z); cbn [andb]; [|ring]. destruct (Z.ltb_spec z (Z.of_nat n)), (Z.ltb_spec z (Z.of_nat (S n))); try lia; ring.
    + rewrite andb_false_r. ring.
Qed.
Lemma sp_peq n A B : (forall j, (j < n)%nat -> A j == B j) -> peq (sp n A) (sp n B).
Proof.
  intros H x. rewrite !coef_sp. destruct x as [|z [|]]; try reflexivity.
  destruct (Z.leb_spec 0 z); cbn [andb]; [|reflexivity]. destruct (Z.ltb_spec z (Z.of_nat n)); [|reflexivity]. apply H. lia.
Qed.
Lemma shift_single i z : forall z0, shift_coef [i] [z] [z0] = if (i + z0 =? z)%Z then 1 else 0.
Proof. intros z0. unfold shift_coef. cbn [vadd same_exps]. now rewrite andb_true_r. Qed.
Lemma qn_pick (f : nat -> Q) n k : (k < n)%nat -> (forall i, (i < n)%nat -> i <> k -> f i == 0) -> qn f n == f k.
Proof.
  intros Hk. induction n as [|n IH]; intros H; [lia|]. cbn [qn]. destruct (Nat.eq_dec k n) as [->|Hne].
  - rewrite qn_zero; [ring|]. intros i Hi. apply H; lia.
  - rewrite IH, (H n) by (try lia; intros; apply H; lia). ring.
Qed.
Lemma product_sp K A B : peq (truncate [0%Z] [Z.of_nat K] (pmul (sp (S K) A) (sp (S K) B))) (sp (S K) (conv A B)).
Proof.
  intros x. rewrite coef_filter_box, coef_sp.
  destruct x as [|z [|z2 x]].
  - cbn [in_box]. rewrite coef_pmul, wsum_sp. apply qn_zero. intros i _. rewrite wsum_sp. rewrite qn_zero; [ring|]. intros j _. unfold shift_coef. cbn [vadd same_exps]. ring.
  - cbn [in_box]. rewrite andb_true_r. destruct (Z.leb_spec 0 z) as [H0|H0]; cbn [andb]; [|reflexivity].
    destruct (Z.leb_spec z (Z.of_nat K)) as [H1|H1]; destruct (Z.ltb_spec z (Z.of_nat (S K))) as [H2|H2]; try lia; [|reflexivity].
    rewrite coef_pmul, wsum_sp. unfold conv. rewrite (qn_split _ (S (Z.to_nat z)) (S K)).
    + apply qn_ext. intros i Hi. rewrite wsum_sp. rewrite (qn_pick _ _ (Z.to_nat z - i)%nat).
      * rewrite shift_single. destruct (Z.eqb_spec (Z.of_nat i + Z.of_nat (Z.to_nat z - i)) z); [ring|lia].
      * lia.
      * intros j Hj Hne. rewrite shift_single. destruct (Z.eqb_spec (Z.of_nat i + Z.of_nat j) z); [lia|ring].
    + lia.
    + intros i Hi. rewrite wsum_sp, qn_zero; [ring|]. intros j Hj. rewrite shift_single. destruct (Z.eqb_spec (Z.of_nat i + Z.of_nat j) z); [lia|ring].
  - assert (Z : wsum (fun y => wsum (shift_coef y (z :: z2 :: x)) (sp (S K) B)) (sp (S K) A) == 0).
    { rewrite wsum_sp. apply qn_zero. intros i _. rewrite wsum_sp. rewrite qn_zero; [ring|]. intros j _. unfold shift_coef. cbn [vadd same_exps]. rewrite andb_false_r. ring. }
    destruct (in_box [0%Z] [Z.of_nat K] (z :: z2 :: x)); [rewrite coef_pmul; exact Z|reflexivity].
Qed.

Lemma trie_multiply_sp K t1 t2 A B : trie_poly 1 t1 (sp (S K) A) -> trie_poly 1 t2 (sp (S K) B) -> ~ A O == 0 -> ~ B O == 0 ->
  exists t, trie_multiply rat_add rat_zero rat_mul_fun t1 t2 1 [0%Z] [Z.of_nat K] = Ok t /\ trie_poly 1 t (sp (S K) (conv A B)).
Proof.
  intros T1 T2 HA HB. unfold trie_multiply.
  destruct (trie_poly_terms 1 t1 _ T1) as (l1 & E1 & _ & G1 & Q1). destruct (trie_poly_terms 1 t2 _ T2) as (l2 & E2 & _ & G2 & Q2).
  rewrite E1, E2. cbn [bind].
  assert (NE : l1 <> []).
  { intros ->. specialize (Q1 [0%Z]). rewrite coef_sp in Q1. cbn [terms_poly map coef] in Q1. destruct (Z.ltb_spec 0 (Z.of_nat (S K))); [|lia]. cbn [Z.leb Z.compare andb Z.to_nat] in Q1. apply HA. symmetry. exact Q1. }
  destruct (mul_lists_poly 1 l1 l2 [0%Z] [Z.of_nat K]) as (t & Et & Ht); auto; [now apply good_delivered|now apply good_delivered|].
  assert (EQ : peq (truncate [0%Z] [Z.of_nat K] (pmul (terms_poly l1) (terms_poly l2))) (sp (S K) (conv A B))).
  { eapply peq_trans; [apply truncate_peq, pmul_peq; eassumption|]. apply product_sp. }
  exists t. split; [destruct l1; [congruence|exact Et]|].
  destruct Ht as [(_ & _ & P0)|(_ & P)].
  - exfalso. pose proof (peq_trans _ _ _ (peq_sym _ _ P0) EQ [0%Z]) as C. rewrite coef_sp in C. destruct (Z.ltb_spec 0 (Z.of_nat (S K))); [|lia].
    cbn [Z.leb Z.compare andb Z.to_nat coef] in C. unfold conv in C. cbn [qn Nat.sub] in C. rewrite Qplus_0_l in C. symmetry in C. apply Qmult_integral in C. tauto.
  - eapply trie_poly_peq; eauto.
Qed.
