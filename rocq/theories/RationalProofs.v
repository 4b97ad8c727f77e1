From Coq Require Import QArith Qpower Qfield Znumtheory.
From Verif Require Import Common Rational RationalSpec.
Open Scope Q_scope.

Lemma inject_nz z : z <> 0%Z -> ~ inject_Z z == 0.
Proof. intros H E. apply H. unfold Qeq in E; simpl in E. lia. Qed.

Lemma value_div r : (0 < den r)%Z -> value r == inject_Z (num r) / inject_Z (den r).
Proof.
  intros H. unfold value. rewrite (Qmake_Qdiv (num r)). rewrite Z2Pos.id by exact H. reflexivity.
Qed.

Lemma canonicalize_correct n d :
  d <> 0%Z ->
  lowest_terms (canonicalize (mkRat n d)) /\
  value (canonicalize (mkRat n d)) == inject_Z n / inject_Z d.
Proof.
  intros Hd.
  assert (P : forall n d, (0 < d)%Z ->
    let g := Z.gcd n d in
    let r := (if (g =? 1)%Z then mkRat n d else mkRat (n / g) (d / g)) in
    lowest_terms r /\ value r == inject_Z n / inject_Z d).
  { clear. intros n d Hd g r.
    destruct (Z.gcd_divide_l n d) as [a Ha], (Z.gcd_divide_r n d) as [b Hb].
    assert (Hg : (0 < g)%Z).
    { unfold g. pose proof (Z.gcd_nonneg n d). assert (Z.gcd n d <> 0)%Z; [|lia].
      intros E. apply Z.gcd_eq_0_r in E. lia. }
    fold g in Ha, Hb.
    assert (Hr : r = mkRat a b).
    { unfold r. destruct (Z.eqb_spec g 1) as [E|E].
      - rewrite E in Ha, Hb. f_equal; lia.
      - rewrite Ha, Hb at 1. rewrite !Z.div_mul by lia. reflexivity. }
    rewrite Hr.
    assert (Hb0 : (0 < b)%Z) by nia.
    split.
    - split; [exact Hb0|]. simpl.
      pose proof (Z.gcd_div_gcd n d g ltac:(lia) eq_refl) as G.
      rewrite Ha, Hb in G at 1. rewrite !Z.div_mul in G by lia. exact G.
    - rewrite value_div by exact Hb0. cbn [num den].
      replace (inject_Z n) with (inject_Z a * inject_Z g) by (rewrite <- inject_Z_mult; now rewrite <- Ha).
      replace (inject_Z d) with (inject_Z b * inject_Z g) by (rewrite <- inject_Z_mult; now rewrite <- Hb).
       field. split; apply inject_nz; lia. }
  unfold canonicalize; simpl.
  destruct (Z.ltb_spec d 0) as [L|L].
  - destruct (P (n * -1) (d * -1))%Z as [A B]; [lia|]. split; [exact A|].
    rewrite B. rewrite !inject_Z_mult. field; repeat split; apply inject_nz; lia.
  - destruct (Z.eqb_spec d 0) as [E|E]; [lia|]. apply P; lia.
Qed.

Lemma canonicalize_id r : lowest_terms r -> canonicalize r = r.
Proof.
  intros [H1 H2]. unfold canonicalize.
  destruct (Z.ltb_spec (den r) 0); [lia|]. destruct (Z.eqb_spec (den r) 0); [lia|].
  rewrite H2. reflexivity.
Qed.

Lemma lowest_terms_unique a b :
  lowest_terms a -> lowest_terms b -> value a == value b -> a = b.
Proof.
  destruct a as [n d], b as [n' d']; intros [H1 H2] [H3 H4] E.
  unfold value, Qeq in E; simpl in *.
  rewrite !Z2Pos.id in E by assumption.
  assert (D1 : (d | d')%Z).
  { apply Z.gauss with n. exists n'. lia. rewrite Z.gcd_comm; exact H2. }
  assert (D2 : (d' | d)%Z).
  { apply Z.gauss with n'. exists n. lia. rewrite Z.gcd_comm; exact H4. }
  assert (d = d') by (apply Z.divide_antisym_nonneg; auto; lia). subst.
  f_equal. nia.
Qed.

Lemma rat_eqb_spec a b : lowest_terms a -> lowest_terms b ->
  (rat_eqb a b = true <-> value a == value b).
Proof.
  intros Ha Hb. unfold rat_eqb. rewrite andb_true_iff, !Z.eqb_eq. split.
  - intros [E1 E2]. unfold value. rewrite E1, E2. reflexivity.
  - intros E. rewrite (lowest_terms_unique a b Ha Hb E). auto.
Qed.

Lemma value_zero r : lowest_terms r -> (value r == 0 <-> num r = 0%Z).
Proof. intros [H _]. unfold value, Qeq; simpl. split; lia. Qed.

Definition rel (s : store) (q : qstore) : Prop :=
  forall i, lowest_terms (s i) /\ value (s i) == q i.

Lemma rel_init : rel init qinit.
Proof. intros i; split; [split; reflexivity | reflexivity]. Qed.

Lemma rel_set s q i r v :
  rel s q -> lowest_terms r -> value r == v -> rel (set s i r) (qset q i v).
Proof.
  intros R L V k. unfold set, qset. destruct (Nat.eqb k i); auto.
Qed.

Lemma set_same s i r : set s i r i = r.
Proof. unfold set. now rewrite Nat.eqb_refl. Qed.
Lemma set_other s i j r : i <> j -> set s i r j = s j.
Proof. unfold set. intros H. destruct (Nat.eqb_spec j i); congruence. Qed.

(** Two writes to the same variable: the last one wins, pointwise. *)
Lemma rel_set2 s q i r r' v :
  rel s q -> lowest_terms r -> value r == v -> rel (set (set s i r') i r) (qset q i v).
Proof.
  intros R L V k. unfold set, qset. destruct (Nat.eqb k i); auto.
Qed.
Lemma rel_set3 s q i r r' r'' v :
  rel s q -> lowest_terms r -> value r == v -> rel (set (set (set s i r'') i r') i r) (qset q i v).
Proof.
  intros R L V k. unfold set, qset. destruct (Nat.eqb k i); auto.
Qed.

Lemma den_nz r : lowest_terms r -> den r <> 0%Z.
Proof. intros [H _]; lia. Qed.

Ltac nz := repeat match goal with
  | |- _ /\ _ => split
  | |- ~ inject_Z _ == 0 => apply inject_nz
  | |- (_ * _)%Z <> 0%Z => apply Z.neq_mul_0; split
  | H : lowest_terms ?r |- den ?r <> 0%Z => exact (den_nz r H)
  | |- _ => assumption
  end.

Ltac canon := 
  match goal with |- lowest_terms (canonicalize (mkRat ?n ?d)) /\ _ =>
     let A := fresh in let B := fresh in
     destruct (canonicalize_correct n d) as [A B]; [| split; [exact A | rewrite B]] end.

Lemma add_ref_ok s q i j : rel s q ->
  exists s', add_ref s i j = Ok s' /\ rel s' (qset q i (q i + q j)).
Proof.
  intros R. unfold add_ref.
  destruct (R i) as [Li Vi], (R j) as [Lj Vj].
  set (s1 := set s i _). set (s2 := set s1 i _).
  assert (D1 : den (s1 j) = den (s j)).
  { unfold s1, set. destruct (Nat.eqb_spec j i); subst; reflexivity. }
  assert (E2 : s2 i = mkRat (num (s i) * den (s j) + num (s j) * den (s i)) (den (s i) * den (s j))).
  { unfold s2. rewrite set_same. rewrite D1. unfold s1; rewrite set_same. reflexivity. }
  assert (N2 : den (s2 j) <> 0%Z).
  { destruct (Nat.eqb_spec j i) as [->|N].
    - rewrite E2. simpl. nz.
    - unfold s2. rewrite set_other by auto. rewrite D1. nz. }
  unfold assert_then. destruct (Z.eqb_spec (den (s2 j)) 0); [contradiction|]. simpl.
  eexists; split; [reflexivity|].
  unfold s2, s1. 
  enough (lowest_terms (canonicalize (s2 i)) /\ value (canonicalize (s2 i)) == q i + q j) as [A B]
    by (apply rel_set3; auto).
  rewrite E2. canon; [nz|].
  rewrite <- Vi, <- Vj, !value_div by (apply Li || apply Lj).
  rewrite !inject_Z_plus, !inject_Z_mult. field. nz.
Qed.

Lemma sub_ref_ok s q i j : rel s q ->
  exists s', sub_ref s i j = Ok s' /\ rel s' (qset q i (q i - q j)).
Proof.
  intros R. unfold sub_ref.
  destruct (R i) as [Li Vi], (R j) as [Lj Vj].
  set (s1 := set s i _). set (s2 := set s1 i _).
  assert (D1 : den (s1 j) = den (s j)).
  { unfold s1, set. destruct (Nat.eqb_spec j i); subst; reflexivity. }
  assert (E2 : s2 i = mkRat (num (s i) * den (s j) + num (s j) * (-1) * den (s i)) (den (s i) * den (s j))).
  { unfold s2. rewrite set_same. rewrite D1. unfold s1; rewrite set_same. reflexivity. }
  assert (N2 : den (s2 j) <> 0%Z).
  { destruct (Nat.eqb_spec j i) as [->|N].
    - rewrite E2. simpl. nz.
    - unfold s2. rewrite set_other by auto. rewrite D1. nz. }
  unfold assert_then. destruct (Z.eqb_spec (den (s2 j)) 0); [contradiction|]. simpl.
  eexists; split; [reflexivity|].
  unfold s2, s1. 
  enough (lowest_terms (canonicalize (s2 i)) /\ value (canonicalize (s2 i)) == q i - q j) as [A B]
    by (apply rel_set3; auto).
  rewrite E2. canon; [nz|].
  rewrite <- Vi, <- Vj, !value_div by (apply Li || apply Lj).
  rewrite !inject_Z_plus, !inject_Z_mult. field. nz.
Qed.

Lemma mul_ref_ok s q i j : rel s q -> rel (mul_ref s i j) (qset q i (q i * q j)).
Proof.
  intros R. unfold mul_ref.
  destruct (R i) as [Li Vi], (R j) as [Lj Vj].
  set (s1 := set s i _). set (s2 := set s1 i _).
  assert (D1 : den (s1 j) = den (s j)).
  { unfold s1, set. destruct (Nat.eqb_spec j i); subst; reflexivity. }
  assert (E2 : s2 i = mkRat (num (s i) * num (s j)) (den (s i) * den (s j))).
  { unfold s2. rewrite set_same. rewrite D1. unfold s1; rewrite set_same. reflexivity. }
  enough (lowest_terms (canonicalize (s2 i)) /\ value (canonicalize (s2 i)) == q i * q j) as [A B]
    by (apply rel_set3; auto).
  rewrite E2. canon; [nz|].
  rewrite <- Vi, <- Vj, !value_div by (apply Li || apply Lj).
  rewrite !inject_Z_mult. field. nz.
Qed.

Lemma div_ref_ok s q i j : rel s q -> i <> j -> ~ q j == 0 ->
  rel (div_ref s i j) (qset q i (q i / q j)).
Proof.
  intros R N Z. unfold div_ref.
  destruct (R i) as [Li Vi], (R j) as [Lj Vj].
  assert (Zn : num (s j) <> 0%Z) by (rewrite <- Vj, value_zero in Z; assumption).
  set (s1 := set s i _). set (s2 := set s1 i _).
  assert (D1 : s1 j = s j) by (unfold s1; rewrite set_other; auto).
  assert (E2 : s2 i = mkRat (num (s i) * den (s j)) (den (s i) * num (s j))).
  { unfold s2. rewrite set_same. rewrite D1. unfold s1; rewrite set_same. reflexivity. }
  enough (lowest_terms (canonicalize (s2 i)) /\ value (canonicalize (s2 i)) == q i / q j) as [A B]
    by (apply rel_set3; auto).
  rewrite E2. canon; [nz|].
  rewrite <- Vi, <- Vj, !value_div by (apply Li || apply Lj).
  rewrite !inject_Z_mult. field. nz.
Qed.

Lemma Qpower_inject z n : inject_Z z ^ Z.of_nat n == inject_Z (z ^ Z.of_nat n).
Proof.
  induction n as [|n IH]; [reflexivity|].
  destruct (Z.eq_dec z 0) as [->|Hz].
  - rewrite Z.pow_0_l by lia. change (inject_Z 0) with 0. apply Qpower_0. lia.
  - rewrite Nat2Z.inj_succ. rewrite Z.pow_succ_r by lia. unfold Z.succ.
    rewrite Qpower_plus by (now apply inject_nz).
    rewrite IH, inject_Z_mult. simpl (inject_Z z ^ 1). ring.
Qed.

Lemma Qpower_inject_Z z e : (0 <= e)%Z -> inject_Z z ^ e == inject_Z (z ^ e).
Proof. intros H. rewrite <- (Z2Nat.id e H). apply Qpower_inject. Qed.

Lemma power_ok s q i e : rel s q -> ((e <? 0)%Z && Qeq_bool (q i) 0 = false) ->
  exists s', power s i e = Ok s' /\ rel s' (qset q i (q i ^ e)).
Proof.
  intros R Hz. destruct (R i) as [Li Vi]. unfold power.
  assert (Dn := den_nz _ Li).
  destruct (Z.ltb_spec 0 e) as [P|P].
  - eexists; split; [reflexivity|].
    enough (lowest_terms (canonicalize (mkRat (num (s i) ^ e) (den (s i) ^ e))) /\
            value (canonicalize (mkRat (num (s i) ^ e) (den (s i) ^ e))) == q i ^ e) as [A B]
      by (apply rel_set; auto).
    canon. { apply Z.pow_nonzero; lia. }
    rewrite <- Vi, value_div by apply Li. rewrite Qdiv_power.
    rewrite !Qpower_inject_Z by lia. reflexivity.
  - destruct (Z.ltb_spec e 0) as [N|N].
    + simpl in Hz. assert (Zi : ~ q i == 0).
      { intros E. apply Qeq_bool_iff in E. congruence. }
      assert (Zn : num (s i) <> 0%Z) by (rewrite <- Vi, value_zero in Zi; assumption).
      unfold assert_then. destruct (Z.eqb_spec (num (s i)) 0); [contradiction|]. simpl.
      eexists; split; [reflexivity|].
      set (r := mkRat _ _).
      enough (lowest_terms (canonicalize r) /\ value (canonicalize r) == q i ^ e) as [A B]
        by (apply rel_set; auto).
      unfold r. replace (e * -1)%Z with (-e)%Z by lia. canon. { apply Z.pow_nonzero; lia. }
      rewrite <- Vi, value_div by apply Li.
      remember (- e)%Z as f eqn:Ef. replace e with (- f)%Z by lia.
      rewrite (Qpower_opp _ f).
      rewrite !Qdiv_power, !Qpower_inject_Z by lia. field.
      split; apply inject_nz; apply Z.pow_nonzero; lia.
    + assert (e = 0)%Z by lia. subst. eexists; split; [reflexivity|].
      apply rel_set; auto; [split; reflexivity | reflexivity].
Qed.

Lemma rel_assign s q i r v : rel s q -> lowest_terms r -> value r == v ->
  rel (assign s i r) (qset q i v).
Proof. intros R L V. unfold assign. rewrite canonicalize_id by assumption. now apply rel_set. Qed.

Lemma rel_copy a b q1 q2 : lowest_terms a -> lowest_terms b -> value a == q1 -> value b == q2 ->
  rel (set (set init 1%nat b) 0%nat a) (qset (qset qinit 1%nat q2) 0%nat q1).
Proof. intros; apply rel_set; auto. apply rel_set; auto. apply rel_init. Qed.

Lemma qdiv_some a b o : qdiv a b = Some o -> ~ b == 0 /\ o = a / b.
Proof.
  unfold qdiv. destruct (Qeq_bool b 0) eqn:E; [discriminate|]. intros [= <-].
  split; [|reflexivity]. intros X. apply Qeq_bool_iff in X. congruence.
Qed.

Lemma rel_ext s q q' : rel s q -> (forall i, q i == q' i) -> rel s q'.
Proof. intros R E i. destruct (R i) as [A B]. split; [exact A|]. rewrite B. apply E. Qed.

Lemma step_ok s q o q' : rel s q -> self_division o = false -> spec_step q o = Some q' ->
  exists s', step s o = Ok s' /\ rel s' q'.
Proof.
  intros R SD H. destruct o; simpl in *.
  - (* OSet *)
    unfold qset_opt in H. destruct (qdiv (inject_Z n) (inject_Z d)) as [v|] eqn:E; [|discriminate].
    injection H as <-. apply qdiv_some in E as [E ->].
    assert (d <> 0)%Z. { intros ->. apply E. reflexivity. }
    destruct (canonicalize_correct n d) as [A B]; [assumption|].
    eexists; split; [reflexivity|]. apply rel_assign; auto.
  - injection H as <-. eexists; split; [reflexivity|]. apply rel_set; auto.
    + split; [reflexivity|]. simpl. apply Z.gcd_1_r.
    + reflexivity.
  - injection H as <-. eexists; split; [reflexivity|].
    destruct (Nat.eqb_spec i j) as [->|N].
    + intros k. unfold qset. destruct (Nat.eqb_spec k j) as [->|]; apply R.
    + apply rel_assign; auto; apply R.
  - injection H as <-. now apply add_ref_ok.
  - injection H as <-. now apply sub_ref_ok.
  - injection H as <-. eexists; split; [reflexivity|]. now apply mul_ref_ok.
  - unfold qset_opt in H. destruct (qdiv (q i) (q j)) as [v|] eqn:E; [|discriminate].
    injection H as <-. apply qdiv_some in E as [E ->].
    eexists; split; [reflexivity|]. apply div_ref_ok; auto. now apply Nat.eqb_neq.
  - injection H as <-. unfold on_copy.
    destruct (add_ref_ok (set (set init 1%nat (s k)) 0%nat (s j)) (qset (qset qinit 1%nat (q k)) 0%nat (q j)) 0%nat 1%nat)
      as (t & E & Rt). { apply rel_copy; apply R. }
    rewrite E. cbn. destruct (Rt 0%nat) as [A B]. unfold qset in B; simpl in B.
    eexists; split; [reflexivity|]. apply rel_assign; auto.
  - injection H as <-. unfold on_copy.
    destruct (sub_ref_ok (set (set init 1%nat (s k)) 0%nat (s j)) (qset (qset qinit 1%nat (q k)) 0%nat (q j)) 0%nat 1%nat)
      as (t & E & Rt). { apply rel_copy; apply R. }
    rewrite E. cbn. destruct (Rt 0%nat) as [A B]. unfold qset in B; simpl in B.
    eexists; split; [reflexivity|]. apply rel_assign; auto.
  - injection H as <-. unfold on_copy. cbn [bind].
    pose proof (mul_ref_ok (set (set init 1%nat (s k)) 0%nat (s j)) (qset (qset qinit 1%nat (q k)) 0%nat (q j)) 0%nat 1%nat) as Rt.
    destruct (Rt ltac:(apply rel_copy; apply R) 0%nat) as [A B]. unfold qset in B; simpl in B.
    eexists; split; [reflexivity|]. apply rel_assign; auto.
  - unfold qset_opt in H. destruct (qdiv (q j) (q k)) as [v|] eqn:E; [|discriminate].
    injection H as <-. apply qdiv_some in E as [E ->].
    unfold on_copy. cbn [bind].
    pose proof (div_ref_ok (set (set init 1%nat (s k)) 0%nat (s j)) (qset (qset qinit 1%nat (q k)) 0%nat (q j)) 0%nat 1%nat) as Rt.
    destruct (Rt ltac:(apply rel_copy; apply R) ltac:(lia) E 0%nat) as [A B]. unfold qset in B; simpl in B.
    eexists; split; [reflexivity|]. apply rel_assign; auto.
  - injection H as <-. eexists; split; [reflexivity|]. destruct (R i) as [L V].
    unfold mul_z.
    enough (lowest_terms (canonicalize (mkRat (num (s i) * z) (den (s i)))) /\
            value (canonicalize (mkRat (num (s i) * z) (den (s i)))) == q i * inject_Z z) as [A B]
      by (apply rel_set; auto).
    canon; [nz|]. rewrite <- V, value_div by apply L. rewrite inject_Z_mult. field. nz.
  - unfold qset_opt in H. destruct (qdiv (q i) (inject_Z z)) as [v|] eqn:E; [|discriminate].
    injection H as <-. apply qdiv_some in E as [E ->].
    assert (z <> 0)%Z. { intros ->. apply E. reflexivity. }
    eexists; split; [reflexivity|]. destruct (R i) as [L V]. unfold div_z.
    enough (lowest_terms (canonicalize (mkRat (num (s i)) (den (s i) * z))) /\
            value (canonicalize (mkRat (num (s i)) (den (s i) * z))) == q i / inject_Z z) as [A B]
      by (apply rel_set; auto).
    canon; [nz|]. rewrite <- V, value_div by apply L. rewrite inject_Z_mult. field. nz.
  - injection H as <-. eexists; split; [reflexivity|]. destruct (R i) as [L V].
    unfold change_sign. apply rel_set; auto.
    + destruct L as [L1 L2]. split; [exact L1|]. simpl.
      replace (num (s i) * -1)%Z with (- num (s i))%Z by lia. now rewrite Z.gcd_opp_l.
    + rewrite <- V. unfold value, Qopp, Qeq; simpl. lia.
  - destruct ((e <? 0)%Z && Qeq_bool (q i) 0) eqn:E; [discriminate|].
    injection H as <-. now apply power_ok.
Qed.

Lemma run_ok p : forall s q q', rel s q -> forallb (fun o => negb (self_division o)) p = true ->
  spec_run q p = Some q' -> exists s', run s p = Ok s' /\ rel s' q'.
Proof.
  induction p as [|o p IH]; intros s q q' R SD H; simpl in *.
  - injection H as <-. eauto.
  - apply andb_true_iff in SD as [SD1 SD2]. apply negb_true_iff in SD1.
    destruct (spec_step q o) as [q1|] eqn:E; [|discriminate].
    destruct (step_ok s q o q1 R SD1 E) as (s1 & E1 & R1). rewrite E1. simpl. eauto.
Qed.

Lemma run_exact p qs :
  forallb (fun o => negb (self_division o)) p = true ->
  spec_run qinit p = Some qs ->
  exists s, run init p = Ok s /\
    forall i, lowest_terms (s i) /\ value (s i) == qs i.
Proof. intros H1 H2. destruct (run_ok p init qinit qs rel_init H1 H2) as (s & E & R). eauto. Qed.

Lemma run_eq p qs s :
  forallb (fun o => negb (self_division o)) p = true ->
  spec_run qinit p = Some qs -> run init p = Ok s ->
  forall i j, rat_eqb (s i) (s j) = true <-> qs i == qs j.
Proof.
  intros H1 H2 H3 i j. destruct (run_exact p qs H1 H2) as (s' & E & R).
  rewrite E in H3; injection H3 as <-.
  destruct (R i) as [A B], (R j) as [C D]. rewrite rat_eqb_spec by assumption.
  rewrite B, D. reflexivity.
Qed.

Lemma inner_loop_ok v : forall w acc, length v = length w ->
  Forall lowest_terms v -> Forall lowest_terms w -> lowest_terms acc ->
  exists r, inner_loop acc v w = Ok r /\ lowest_terms r /\ value r == value acc + qdot v w.
Proof.
  induction v as [|a v IH]; intros [|b w] acc HL Hv Hw Ha; simpl in HL; try discriminate.
  - exists acc. split; [reflexivity|]. split; [assumption|]. simpl. ring.
  - inversion Hv as [|? ? La Hv']; inversion Hw as [|? ? Lb Hw']; subst. simpl.
    unfold rat_mul_fun.
    destruct (canonicalize_correct (num a * num b) (den a * den b)) as [A B]; [nz|].
    set (t := canonicalize _) in *.
    assert (Dt := den_nz _ A).
    unfold assert_then. destruct (Z.eqb_spec (den t) 0); [contradiction|]. simpl.
    destruct (canonicalize_correct (num acc * den t + num t * den acc) (den acc * den t)) as [C D]; [nz|].
    edestruct (IH w) as (r & E & Lr & Vr); [lia|exact Hv'|exact Hw'|exact C|].
    rewrite E. exists r. split; [reflexivity|]. split; [exact Lr|].
    rewrite Vr, D. rewrite (value_div a), (value_div b), (value_div acc) by (apply La || apply Lb || apply Ha).
    assert (B' : inject_Z (num t) / inject_Z (den t) == inject_Z (num a) / inject_Z (den a) * (inject_Z (num b) / inject_Z (den b))).
    { rewrite <- value_div by apply A. rewrite B, !inject_Z_mult. field. nz. }
    rewrite Qplus_assoc, <- B'. rewrite inject_Z_plus, !inject_Z_mult. field. nz.
Qed.

(** Binary gcd. *)
Lemma even_half a : (a mod 2 =? 0)%Z = true -> a = (2 * (a / 2))%Z.
Proof. intros H. apply Z.eqb_eq in H. pose proof (Z.div_mod a 2). lia. Qed.
Lemma odd_rep a : (a mod 2 =? 0)%Z = false -> a = (2 * (a / 2) + 1)%Z.
Proof. intros H. apply Z.eqb_neq in H. pose proof (Z.div_mod a 2). pose proof (Z.mod_pos_bound a 2). lia. Qed.

Lemma gcd_odd_double a b : (b mod 2 =? 0)%Z = false -> Z.gcd (2 * a) b = Z.gcd a b.
Proof.
  intros O. apply odd_rep in O.
  assert (G : Z.gcd b 2 = 1%Z).
  { rewrite O. rewrite Z.gcd_comm. 
    replace (2 * (b / 2) + 1)%Z with (1 + (b / 2) * 2)%Z by lia.
    rewrite Z.gcd_add_mult_diag_r. reflexivity. }
  apply Z.divide_antisym_nonneg; try apply Z.gcd_nonneg.
  - apply Z.gcd_greatest; [|apply Z.gcd_divide_r].
    apply Z.gauss with 2%Z; [apply Z.gcd_divide_l|].
    apply Z.divide_1_r_nonneg; [apply Z.gcd_nonneg|]. rewrite <- G.
    apply Z.gcd_greatest; [|apply Z.gcd_divide_r].
    etransitivity; [apply Z.gcd_divide_l|]. apply Z.gcd_divide_r.
  - apply Z.gcd_greatest; [|apply Z.gcd_divide_r].
    apply Z.divide_mul_r. apply Z.gcd_divide_l.
Qed.

Lemma my_gcd_loop_ok f : forall a b k, (0 <= a)%Z -> (0 <= b)%Z -> (0 <= k)%Z ->
  (a < 2 ^ Z.of_nat f)%Z -> (b < 2 ^ Z.of_nat f)%Z ->
  forall g, (2 * f < g)%nat -> my_gcd_loop g a b k = Ok (Z.gcd a b * 2 ^ k)%Z.
Proof.
  (* measure: log a + log b *)
  assert (K : forall n a b k, (0 <= a)%Z -> (0 <= b)%Z -> (0 <= k)%Z ->
     (exists x y : nat, (x + y <= n)%nat /\ a < 2 ^ Z.of_nat x /\ b < 2 ^ Z.of_nat y)%Z ->
     forall g, (n < g)%nat -> my_gcd_loop g a b k = Ok (Z.gcd a b * 2 ^ k)%Z).
  { induction n as [n IH] using lt_wf_ind. intros a b k Ha Hb Hk (x & y & Hn & Hx & Hy) g Hg.
    destruct g as [|g]; [lia|]. simpl.
    destruct (Z.eqb_spec a 0) as [->|Na].
    { simpl. now rewrite Z.abs_eq by lia. }
    destruct (Z.eqb_spec b 0) as [->|Nb].
    { rewrite Z.gcd_0_r, Z.abs_eq by lia. reflexivity. }
    assert (H2 : forall z (m : nat), (0 < z)%Z -> (z < 2 ^ Z.of_nat m)%Z ->
               exists m', m = S m' /\ (2 ^ Z.of_nat m = 2 * 2 ^ Z.of_nat m')%Z).
    { intros z [|m'] Hz Hm; [simpl in Hm; lia|]. exists m'. split; auto.
      rewrite Nat2Z.inj_succ, Z.pow_succ_r by lia. reflexivity. }
    destruct (H2 a x) as (x' & -> & Ex); [lia|lia|].
    destruct (H2 b y) as (y' & -> & Ey); [lia|lia|].
    destruct (a mod 2 =? 0)%Z eqn:Oa.
    - pose proof (even_half a Oa) as Ea.
      destruct (b mod 2 =? 0)%Z eqn:Ob.
      + pose proof (even_half b Ob) as Eb.
        rewrite (IH (x' + y')%nat); try lia.
        2: exists x', y'; repeat split; lia.
        rewrite Ea, Eb at 2. rewrite Z.gcd_mul_mono_l. rewrite Z.pow_add_r by lia.
        f_equal. simpl (Z.abs 2). lia.
      + rewrite (IH (x' + S y')%nat); try lia.
        2: exists x', (S y'); repeat split; lia.
        rewrite Ea at 2. now rewrite gcd_odd_double.
    - destruct (b mod 2 =? 0)%Z eqn:Ob.
      + pose proof (even_half b Ob) as Eb.
        rewrite (IH (S x' + y')%nat); try lia.
        2: exists (S x'), y'; repeat split; lia.
        rewrite Eb at 2. rewrite !(Z.gcd_comm a). now rewrite gcd_odd_double.
      + pose proof (odd_rep a Oa) as Ea. pose proof (odd_rep b Ob) as Eb.
        destruct (Z.ltb_spec a b) as [L|L].
        * assert (Ed : (b - a = 2 * ((b - a) / 2))%Z).
          { replace (b - a)%Z with ((b/2 - a/2) * 2)%Z by lia. rewrite Z.div_mul by lia. lia. }
          rewrite (IH (S x' + y')%nat); try lia.
          2: exists (S x'), y'; repeat split; lia.
          f_equal. f_equal.
          rewrite (Z.gcd_comm a ((b - a) / 2)).
          rewrite <- (gcd_odd_double ((b - a) / 2) a) by assumption. rewrite <- Ed.
          rewrite Z.gcd_comm. replace (b - a)%Z with (b + (-1) * a)%Z by lia.
          apply Z.gcd_add_mult_diag_r.
        * assert (Ed : (a - b = 2 * ((a - b) / 2))%Z).
          { replace (a - b)%Z with ((a/2 - b/2) * 2)%Z by lia. rewrite Z.div_mul by lia. lia. }
          rewrite (IH (x' + S y')%nat); try lia.
          2: exists x', (S y'); repeat split; lia.
          f_equal. f_equal.
          rewrite <- (gcd_odd_double ((a - b) / 2) b) by assumption. rewrite <- Ed.
          rewrite Z.gcd_comm. replace (a - b)%Z with (a + (-1) * b)%Z by lia.
          rewrite Z.gcd_add_mult_diag_r. apply Z.gcd_comm. }
  intros a b k Ha Hb Hk Fa Fb g Hg. apply (K (f + f)%nat); auto; try lia.
  exists f, f. auto.
Qed.

Lemma my_gcd_ok f a b : (Z.abs a < 2 ^ Z.of_nat f)%Z -> (Z.abs b < 2 ^ Z.of_nat f)%Z ->
  my_gcd (2 * f + 1) a b = Ok (Z.gcd a b).
Proof.
  intros Ha Hb. unfold my_gcd.
  replace (a * Z.sgn a)%Z with (Z.abs a) by (rewrite Z.mul_comm, Z.sgn_abs || lia; lia).
  replace (b * Z.sgn b)%Z with (Z.abs b) by lia.
  rewrite <- Z.gcd_abs_l, <- Z.gcd_abs_r.
  destruct (Z.eqb_spec (Z.abs b) 1) as [E|N]; simpl.
  - rewrite E. now rewrite Z.gcd_1_r.
  - destruct (Z.eqb_spec (Z.abs a) (Z.abs b)) as [E|N'].
    + rewrite E, Z.gcd_diag. now rewrite Z.abs_involutive.
    + rewrite (my_gcd_loop_ok f); try lia. rewrite Z.pow_0_r. f_equal. lia.
Qed.

Lemma power_exact p qs s i e :
  forallb (fun o => negb (self_division o)) p = true ->
  spec_run qinit p = Some qs -> run init p = Ok s ->
  (0 <= e \/ ~ qs i == 0)%Z ->
  exists s', step s (OPow i e) = Ok s' /\ value (s' i) == qs i ^ e /\ lowest_terms (s' i) /\
             forall j, j <> i -> s' j = s j.
Proof.
  intros H1 H2 H3 H4. destruct (run_ok p init qinit qs rel_init H1 H2) as (s0 & E & R).
  rewrite E in H3; injection H3 as <-.
  destruct (power_ok s0 qs i e R) as (s' & E' & R').
  { destruct H4 as [H4|H4].
    - destruct (Z.ltb_spec e 0); [lia|reflexivity].
    - destruct (Qeq_bool (qs i) 0) eqn:Q; [|now rewrite andb_false_r].
      apply Qeq_bool_iff in Q. contradiction. }
  exists s'. split; [exact E'|]. destruct (R' i) as [A B].
  unfold qset in B. rewrite Nat.eqb_refl in B. split; [exact B|]. split; [exact A|].
  intros j Hj. unfold power in E'.
  destruct (0 <? e)%Z; [|destruct (e <? 0)%Z; [unfold assert_then in E'; destruct (negb _); [|discriminate]|]];
    injection E' as <-; unfold set; destruct (Nat.eqb_spec j i); congruence.
Qed.

Lemma power_zero_rejected p qs s i e :
  forallb (fun o => negb (self_division o)) p = true ->
  spec_run qinit p = Some qs -> run init p = Ok s ->
  (e < 0)%Z -> qs i == 0 -> step s (OPow i e) = Err AssertFail.
Proof.
  intros H1 H2 H3 H4 H5. destruct (run_ok p init qinit qs rel_init H1 H2) as (s0 & E & R).
  rewrite E in H3; injection H3 as <-. destruct (R i) as [A B].
  assert (Zn : num (s0 i) = 0%Z).
  { apply value_zero; [exact A|]. now rewrite B. }
  simpl. unfold power. destruct (Z.ltb_spec 0 e); [lia|]. destruct (Z.ltb_spec e 0); [|lia].
  rewrite Zn. reflexivity.
Qed.

Lemma zero_denominator_witness :
  exists s, run init [OSet 0 5 0; OSet 1 3 4; ODivZ 1 0] = Ok s /\
    spec_run qinit [OSet 0 5 0; OSet 1 3 4; ODivZ 1 0] = None /\
    s 0%nat = mkRat 5 1 /\ s 1%nat = mkRat 3 1.
Proof. eexists; split; [reflexivity|]. split; [|split]; reflexivity. Qed.

Lemma rat_make_zero n : rat_make n 0 = mkRat n 1.
Proof. reflexivity. Qed.

Lemma self_division_witness :
  exists s, run init [OSet 0 3 4; ODiv 0 0] = Ok s /\ s 0%nat = mkRat 1 4.
Proof. eexists; split; [reflexivity|]. reflexivity. Qed.

Lemma self_division_actual s i :
  lowest_terms (s i) -> num (s i) <> 0%Z -> value (div_ref s i i i) == 1 / inject_Z (den (s i)).
Proof.
  intros L N. unfold div_ref. rewrite !set_same. cbn [num den].
  destruct (canonicalize_correct (num (s i) * den (s i)) (den (s i) * (num (s i) * den (s i)))) as [A B]; [nz|].
  rewrite B, !inject_Z_mult. field. nz.
Qed.

Lemma inner_product_ok v w :
  Forall lowest_terms v -> Forall lowest_terms w -> length v = length w ->
  exists r, inner_product v w = Ok r /\ lowest_terms r /\ value r == qdot v w.
Proof.
  intros Hv Hw HL. unfold inner_product. rewrite HL, Nat.eqb_refl.
  destruct (inner_loop_ok v w rat_default HL Hv Hw) as (r & E & L & V); [split; reflexivity|].
  exists r. split; [exact E|]. split; [exact L|]. rewrite V. unfold value; simpl. ring.
Qed.

Lemma inner_product_length v w : length v <> length w -> inner_product v w = Err AssertFail.
Proof. intros H. unfold inner_product. now destruct (Nat.eqb_spec (length v) (length w)). Qed.
