From Coq Require Import QArith Qfield Qpower.
From Verif Require Import Common Rational RationalSpec RationalProofs RatFun IntegSpec IntegProofs IntegMath DecompProofs Knapsack KnapsackSpec KnapsackProofs3 Series.
Open Scope Q_scope.

Definition bern : ser := sinv (phi 1).
Definition bplus : ser := sadd bern (shift sone).
Lemma phi_0 : phi 1 O == 1. Proof. reflexivity. Qed.
Lemma phi_nz : ~ phi 1 O == 0. Proof. rewrite phi_0. discriminate. Qed.
Lemma bern_phi : conv bern (phi 1) ~= sone. Proof. apply conv_inv, phi_nz. Qed.
Lemma bplus_phi : conv bplus (phi 1) ~= sexp 1.
Proof.
  intros n. unfold bplus. rewrite conv_add_l, exp_phi. unfold sadd. rewrite bern_phi, conv_shift_l. apply Qplus_comp; [reflexivity|]. destruct n; [reflexivity|]. cbn [shift]. apply conv_one_l.
Qed.
Lemma m1_nz : ~ (-(1)) == 0. Proof. discriminate. Qed.
Lemma dil_phi : sdil (-(1)) (phi 1) ~= conv (sexp (-(1))) (phi 1).
Proof.
  assert (E : conv (sexp (-(1))) (shift (phi 1)) ~= shift (sdil (-(1)) (phi 1))).
  { intros n. assert (A : shift (phi 1) ~= sadd (sexp 1) (scal (-(1)) sone)) by (intros m; unfold sadd, scal; rewrite (exp_phi 1 m); unfold sadd; ring).
    rewrite (conv_ext (sexp (-(1))) (sexp (-(1))) _ _ (fun _ => Qeq_refl _) A n), conv_add_r. unfold sadd. rewrite exp_add, conv_scal_r. unfold scal. rewrite conv_one_r.
    setoid_replace (sexp (-(1) + 1) n) with (sone n) by apply exp_0.
    destruct n as [|n]; [unfold sexp; cbn; field|]. cbn [sone shift]. unfold sdil, phi, tail, sexp. rewrite !Qpow_S, Qpower_1. field. apply qfact_nz. }
  intros n. specialize (E (S n)). rewrite conv_shift_r in E. cbn [shift] in E. now rewrite E.
Qed.
Lemma dil_one c : sdil c sone ~= sone.
Proof. intros [|n]; unfold sdil; cbn [sone]; [cbn; ring|ring]. Qed.
Lemma bern_reflect : sdil (-(1)) bern ~= bplus.
Proof.
  assert (H1 : conv (sdil (-(1)) bern) (sexp (-(1))) ~= bern).
  { apply (conv_cancel (phi 1)); [apply phi_nz|]. intros n. rewrite conv_assoc, bern_phi.
    rewrite (conv_ext (sdil (-(1)) bern) (sdil (-(1)) bern) _ _ (fun _ => Qeq_refl _) (fun m => Qeq_sym _ _ (dil_phi m)) n). rewrite conv_dil by apply m1_nz.
    unfold sdil at 1. rewrite bern_phi. apply (dil_one (-(1)) n). }
  intros n. rewrite <- (conv_one_r (sdil (-(1)) bern) n).
  assert (H2 : sone ~= conv (sexp (-(1))) (sexp 1)) by (intros m; rewrite exp_add; symmetry; apply exp_0).
  rewrite (conv_ext _ _ _ _ (fun _ => Qeq_refl _) H2 n), <- conv_assoc, (conv_ext _ _ _ _ H1 (fun _ => Qeq_refl _) n).
  rewrite (conv_ext bern bern _ _ (fun _ => Qeq_refl _) (exp_phi 1) n), conv_add_r. unfold bplus, sadd. rewrite conv_one_r, conv_shift_r. apply Qplus_comp; [reflexivity|]. destruct n; [reflexivity|]. cbn [shift]. apply bern_phi.
Qed.
Lemma pow_m1 n : (-(1)) ^ Z.of_nat n == if Nat.odd n then -(1) else 1.
Proof. induction n as [|n IH]; [reflexivity|]. rewrite Qpow_S, IH, Nat.odd_succ, <- Nat.negb_odd. destruct (Nat.odd n); cbn; ring. Qed.
Lemma bplus_odd n : (1 < n)%nat -> Nat.odd n = true -> bplus n == 0.
Proof.
  intros H O. pose proof (bern_reflect n) as E. unfold sdil in E. rewrite pow_m1, O in E. unfold bplus, sadd in *. destruct n as [|[|n]]; try lia. cbn [shift sone] in *.
  assert (X : 2 * bern (S (S n)) == 0) by (setoid_replace (2 * bern (S (S n))) with (bern (S (S n)) + 0 - (-(1) * bern (S (S n)))) by ring; rewrite E; ring).
  apply Qmult_integral in X as [X|X]; [discriminate|]. rewrite X. ring.
Qed.
(** ** The loops of setBernoulli *)
Lemma binom_qfact n k : (k <= n)%nat -> inject_Z (binom n k) == qfact n / (qfact k * qfact (n - k)).
Proof.
  revert n. induction k as [|k IH]; intros n H.
  - rewrite binom_0, Nat.sub_0_r. cbn [qfact]. change (inject_Z 1) with 1. field. apply qfact_nz.
  - pose proof (binom_absorb n k) as A0. apply (f_equal inject_Z) in A0. rewrite !inject_Z_mult in A0. pose proof (IH n ltac:(lia)) as I.
    assert (A : inject_Z (binom n (S k)) * qn (S k) == inject_Z (binom n k) * inject_Z (Z.of_nat n - Z.of_nat k)) by (unfold qn; rewrite Qmult_comm, A0; try rewrite Qmult_comm; reflexivity). clear A0.
    rewrite I in A. rewrite Qmult_comm in A.
    replace (n - k)%nat with (S (n - S k)) in A by lia. cbn [qfact] in *.
    assert (B : inject_Z (Z.of_nat n - Z.of_nat k) == qn (S (n - S k))) by (unfold qn; replace (Z.of_nat n - Z.of_nat k)%Z with (Z.of_nat (S (n - S k))) by lia; reflexivity).
    rewrite B in A. apply (Qmult_inj_l _ _ (qn (S k)) (qn_nz k)). rewrite A. field. repeat split; try apply qfact_nz; apply qn_nz.
Qed.
Definition tab (B : list rat) (n : nat) (b : nat -> Q) : Prop :=
  length B = n /\ Forall lowest_terms B /\ forall i, (i < n)%nat -> value (nth i B rat_default) == qfact i * b i.
Lemma nth_low B i : Forall lowest_terms B -> lowest_terms (nth i B rat_default).
Proof. intros H. destruct (Nat.lt_ge_cases i (length B)) as [L|L]; [rewrite Forall_forall in H; now apply H, nth_In|]. rewrite nth_overflow by lia. split; reflexivity. Qed.
Lemma bsum_ok m B b : tab B m b -> forall n j acc, (j + n = m)%nat -> lowest_terms acc ->
  exists r, bsum m B j n acc = Ok r /\ lowest_terms r /\ value r == value acc + qsum (fun i => qfact m * (b i * phi 1 (m - i)%nat)) (seq j n).
Proof.
  intros (L & F & V). induction n as [|n IH]; intros j acc H La; cbn [bsum].
  - exists acc. split; auto. split; auto. cbn. ring.
  - rewrite tk_binomial_ok by lia. cbn [bind].
    destruct (rat_make_ok (binom m j) (Z.of_nat (m - j + 1)) ltac:(lia)) as [Lm Vm].
    destruct (rat_mul_ok _ _ (nth_low B j F) Lm) as [Lp Vp]. destruct (rat_add_ok _ _ La Lp) as [Ls Vs].
    destruct (IH (S j) _ ltac:(lia) Ls) as (r & E & Lr & Vr). exists r. split; auto. split; auto. rewrite Vr, Vs, Vp, Vm, V by lia. cbn [seq qsum].
    assert (X : qfact j * b j * (inject_Z (binom m j) / inject_Z (Z.of_nat (m - j + 1))) == qfact m * (b j * phi 1 (m - j)%nat));
      [|rewrite X; ring]. rewrite binom_qfact by lia. fold (qn (m - j + 1)). replace (m - j + 1)%nat with (S (m - j)) by lia. unfold phi, tail, sexp. rewrite Qpower_1. cbn [qfact]. field. repeat split; try apply qfact_nz; apply qn_nz.
Qed.
Lemma tab_snoc B n b r : tab B n b -> lowest_terms r -> value r == qfact n * b n -> tab (B ++ [r]) (S n) b.
Proof.
  intros (L & F & V) Lr Vr. split; [rewrite app_length; cbn; lia|]. split; [apply Forall_app; auto|]. intros i Hi.
  destruct (Nat.eq_dec i n) as [->|N]; [rewrite app_nth2, L, Nat.sub_diag by lia; exact Vr|]. rewrite app_nth1 by lia. apply V. lia.
Qed.
Lemma bloop_ok : forall n m B, (1 <= m)%nat -> tab B m bplus -> exists B', bloop n m B = Ok B' /\ tab B' (m + n) bplus.
Proof.
  induction n as [|n IH]; intros m B Hm T; cbn [bloop].
  - exists B. rewrite Nat.add_0_r. auto.
  - replace (m + S n)%nat with (S m + n)%nat by lia. destruct (Nat.ltb_spec 1 m) as [H1|H1]; [destruct (Nat.odd m) eqn:O|]; cbn [andb].
    1:{ apply IH; [lia|]. apply tab_snoc; auto; [apply rat_int_ok|]. rewrite bplus_odd by auto. rewrite (proj2 (rat_int_ok 0)). change (inject_Z 0) with 0. ring. }
    all: destruct (bsum_ok m B bplus T m 0 (mkRat 0 1) ltac:(lia) (proj1 (rat_int_ok 0))) as (r & E & Lr & Vr); rewrite E; cbn [bind];
      destruct (rat_neg_ok r Lr) as [Ln Vn]; destruct (rat_make_ok 1 1 ltac:(lia)) as [L1 V1]; destruct (rat_add_ok _ _ Ln L1) as [La Va];
      (apply IH; [lia|]); (apply tab_snoc; auto); rewrite Va, Vn, Vr, V1, (proj2 (rat_int_ok 0));
      pose proof (bplus_phi m) as P; unfold conv in P; rewrite qsum_seq_S, Nat.sub_diag, phi_0 in P; unfold sexp in P; rewrite Qpower_1 in P;
      rewrite qsum_scale; (setoid_replace (bplus m) with (1 / qfact m - qsum (fun i => bplus i * phi 1 (m - i)%nat) (seq 0 m)) by (rewrite <- P; ring)); change (inject_Z 0) with 0; change (inject_Z 1) with 1; field; apply qfact_nz.
Qed.
Lemma qseqsum_qsum f n : qseqsum f n == qsum f (seq 0 n).
Proof. induction n as [|n IH]; [reflexivity|]. rewrite qsum_seq_S, <- IH. reflexivity. Qed.
Theorem bernoulli_ok k : exists B, set_bernoulli k = Ok B /\ length B = (k + 1)%nat /\ Forall lowest_terms B /\
  forall m, (m <= k)%nat -> bernoulli_recurrence (fun j => value (nth j B rat_default)) m.
Proof.
  assert (T1 : tab [mkRat 1 1] 1 bplus).
  { split; auto. split; [constructor; [apply rat_int_ok|constructor]|]. intros i Hi. replace i with O by lia. reflexivity. }
  destruct (bloop_ok k 1 [mkRat 1 1] ltac:(lia) T1) as (B & E & T). unfold set_bernoulli. rewrite E. cbn [bind].
  set (B' := if (1 <=? k)%nat then _ else B). exists B'. split; auto.
  assert (T' : tab B' (k + 1) bern).
  { destruct T as (L & F & V). assert (V1 : bplus 1%nat == 1 # 2) by reflexivity. unfold B'. destruct (Nat.leb_spec 1%nat k) as [Hk|Hk].
    - destruct (rat_mulz_ok (nth 1%nat B rat_default) (-1) (nth_low B 1%nat F)) as [Lm Vm]. split; [rewrite length_upd; lia|]. split.
      + apply Forall_forall. intros x Hx. apply (In_nth _ _ rat_default) in Hx as (i & Hi & <-). rewrite length_upd in Hi. destruct (Nat.eq_dec 1%nat i) as [<-|N]; [now rewrite nth_upd_eq by lia|]. rewrite nth_upd_neq by auto. now apply nth_low.
      + intros i Hi. destruct (Nat.eq_dec 1%nat i) as [<-|N].
        * rewrite nth_upd_eq by lia. rewrite Vm, V by lia. reflexivity.
        * rewrite nth_upd_neq by auto. rewrite V by lia. unfold bplus, sadd. destruct i as [|[|i]]; [reflexivity|lia|]. cbn [shift sone]. ring.
    - replace k with O in * by lia. split; [lia|]. split; auto. intros i Hi. rewrite V by lia. replace i with O by lia. reflexivity. }
  destruct T' as (L & F & V). split; auto. split; auto. intros m Hm. unfold bernoulli_recurrence. rewrite qseqsum_qsum.
  pose proof (bern_phi m) as P. unfold conv in P. replace (m + 1)%nat with (S m) by lia.
  rewrite (qsum_ext _ (fun i => qfact (S m) * (bern i * phi 1 (m - i)%nat))).
  - rewrite qsum_scale, P. destruct m; reflexivity || (cbn [sone Nat.eqb]; ring).
  - intros i Hi. apply in_seq in Hi. rewrite V by lia. rewrite binom_qfact by lia. replace (S m - i)%nat with (S (m - i)) by lia. unfold phi, tail, sexp. rewrite Qpower_1. field. split; apply qfact_nz.
Qed.
