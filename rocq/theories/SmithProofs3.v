(** The diagonal and the right transformation are always those of a correct diagonalisation. *)
From Verif Require Import Common ZMat HermiteProofs Det DetProofs Smith SmithSpec SmithProofs SmithProofs2.
Open Scope Z_scope.

Definition same_dr (n : nat) (s s' : zmat * zmat * zmat) : Prop := (forall i, (i < n)%nat -> dA s i i = dA s' i i) /\ snd s = snd s'.
Lemma pair_step_same xg n i j s s' : (i < n)%nat -> (j < n)%nat -> same_dr n s s' -> same_dr n (fst (pair_step xg n i j s)) (fst (pair_step xg n i j s')) /\ snd (pair_step xg n i j s) = snd (pair_step xg n i j s').
Proof.
  destruct s as [[A L] R], s' as [[A' L'] R']. intros Hi Hj [HA HR]. unfold dA in HA. cbn [fst snd] in HA, HR. subst R'. unfold pair_step.
  rewrite <- (HA i Hi), <- (HA j Hj). destruct (A i i =? 1); [split; [split; [exact HA|reflexivity]|reflexivity]|]. destruct (A j j =? 0); [split; [split; [exact HA|reflexivity]|reflexivity]|].
  assert (V : forall B k v a, set_ent B k k v a a = if (a =? k)%nat then v else B a a) by (intros B k v a; unfold set_ent; destruct (a =? k)%nat; reflexivity).
  destruct (A i i =? 0).
  - split; [split; [|reflexivity]|reflexivity]. intros a Ha. unfold dA. cbn [fst]. rewrite !tab_meq, !V by auto. rewrite <- (HA a Ha). reflexivity.
  - destruct (xg (A j j) (A i i)) as [[g y] x]. split; [split; [|reflexivity]|reflexivity]. intros a Ha. unfold dA. cbn [fst]. rewrite !tab_meq, !V by auto. rewrite <- (HA a Ha). reflexivity.
Qed.
Lemma pair_row_same xg n i js : forall s s', (i < n)%nat -> (forall j, In j js -> (j < n)%nat) -> same_dr n s s' -> same_dr n (pair_row xg n i js s) (pair_row xg n i js s').
Proof.
  induction js as [|j js IH]; intros s s' Hi H E; cbn [pair_row]; auto. destruct (pair_step_same xg n i j s s' Hi (H j (or_introl eq_refl)) E) as [E1 E2].
  destruct (pair_step xg n i j s) as [s1 b1]. destruct (pair_step xg n i j s') as [s2 b2]. cbn [fst snd] in E1, E2. subst b2. destruct b1; auto. apply IH; auto. intros k Hk. apply H. now right.
Qed.
Lemma pairs_same xg n s s' : same_dr n s s' -> same_dr n (pairs xg n s) (pairs xg n s').
Proof.
  unfold pairs. assert (H : forall i, In i (seq 0 n) -> (i < n)%nat) by (intros i Hi; apply in_seq in Hi; lia). revert s s' H. induction (seq 0 n) as [|i l IH]; intros s s' H E; cbn [fold_left]; auto.
  apply IH; [intros; apply H; now right|]. apply pair_row_same; auto; [apply H; now left|]. intros j Hj. apply in_seq in Hj. assert (i < n)%nat by (apply H; now left). lia.
Qed.
Theorem smith_right xg n A : xgcd_contract xg -> (0 < n)%nat -> det n A <> 0 -> exists fuel S L R, (forall f, (fuel <= f)%nat -> smith f xg n A = Ok (S, L, R)) /\
  (forall i j, (i < n)%nat -> (j < n)%nat -> i <> j -> S i j = 0 \/ (i = n - 1 /\ j = n - 2)%nat) /\
  (forall i, (i < n)%nat -> 0 < S i i) /\
  (diagonal n S -> smith_transform n A S L R) /\
  exists L', smith_transform n A (fun i j => if (i =? j)%nat then S i j else 0) L' R.
Proof.
  intros XG Hn DN. destruct (diagonalize_shape xg XG n A Hn DN) as (fuel & D & L0 & R0 & G & SH & PD). destruct (smith_total xg n A XG Hn DN) as (fuel1 & S & L & R & G1 & O1 & P1 & T1).
  set (f := Nat.max fuel fuel1). assert (E0 : smith f xg n A = Ok (S, L, R)) by (apply G1; lia). assert (E1 : diagonalize f xg n A = Ok (D, L0, R0)) by (apply G; lia).
  unfold smith in E0. rewrite E1 in E0. cbn [bind] in E0. injection E0 as EP.
  (* subtract the left-over entry from the last row *)
  assert (EQ0 := diagonalize_equiv xg XG n f A _ E1).
  assert (FIX : exists D' L0', equiv n (A, delta, delta) (D', L0', R0) /\ diagonal n D' /\ forall i, (i < n)%nat -> D' i i = D i i).
  { destruct (Nat.eq_dec n 1) as [N1|N1].
    { exists D, L0. split; auto. split; auto. intros i j Hi Hj N. lia. }
    set (o := (n - 2)%nat). set (c := if D o o =? 0 then 0 else D (n - 1)%nat o / D o o).
    set (q := fun i => if (i =? n - 1)%nat then c else 0).
    exists (subrows o q D), (subrows o q L0). split; [|split].
    - eapply equiv_trans; [exact EQ0|]. apply (equiv_row n (subrows o q)); try apply meq_refl. apply subrows_op. unfold o. lia.
    - intros i j Hi Hj N. unfold subrows, q. destruct (Nat.ltb_spec o i) as [Li|Li]; [|destruct (SH i j Hi Hj N) as [|(E & _)]; auto; unfold o in Li; lia].
      assert (i = n - 1)%nat by (unfold o in Li; lia). subst i. rewrite Nat.eqb_refl. destruct (Nat.eq_dec j o) as [->|Nj].
      + unfold c. destruct (Z.eqb_spec (D o o) 0) as [Z0|NZ].
        * destruct (SH (n - 1)%nat o Hi Hj N) as [E|(_ & _ & E)]; lia.
        * destruct (SH (n - 1)%nat o Hi Hj N) as [E|(_ & _ & E)]; [rewrite E, Z.div_0_l by auto; ring|].
          assert (DV : (D o o | D (n - 1)%nat o)) by (apply Z.divide_abs_l, Z.divide_abs_r; exists 2; lia). destruct DV as [k Hk]. rewrite Hk, Z.div_mul by auto. ring.
      + destruct (SH (n - 1)%nat j Hi Hj N) as [E|(_ & E & _)]; [|unfold o in Nj; lia]. destruct (SH o j) as [E'|(_ & E' & _)]; [unfold o; lia|auto|auto| |unfold o in Nj; lia]. rewrite E, E'. ring.
    - intros i Hi. unfold subrows, q. destruct (Nat.ltb_spec o i) as [Li|Li]; auto. assert (i = n - 1)%nat by (unfold o in Li; lia). subst i. rewrite Nat.eqb_refl.
      destruct (SH o (n - 1)%nat) as [E'|(E' & _)]; [unfold o; lia|auto|lia| |unfold o in E'; lia]. rewrite E'. ring. }
  destruct FIX as (D' & L0' & EQ' & DD & DV).
  assert (SM : same_dr n (D, L0, R0) (D', L0', R0)) by (split; [intros i Hi; unfold dA; cbn [fst]; now rewrite DV|reflexivity]).
  apply (pairs_same xg n) in SM. rewrite EP in SM. destruct (pairs_ok xg XG n (D', L0', R0) DD) as [E2 D2]. destruct (pairs xg n (D', L0', R0)) as [[S' L'] R'].
  destruct SM as [SD SR]. unfold dA in SD, D2. cbn [fst snd] in SD, SR, D2. subst R'.
  assert (EQS : equiv n (A, delta, delta) (S', L', R)) by (eapply equiv_trans; eauto).
  assert (T : smith_transform n A S' L' R) by (now apply equiv_transform).
  assert (MS : meq n n S' (fun i j => if (i =? j)%nat then S i j else 0)).
  { intros i j Hi Hj. destruct (Nat.eqb_spec i j) as [<-|N]; [now rewrite SD|now apply D2]. }
  exists fuel1, S, L, R. refine (conj G1 (conj O1 (conj _ (conj T1 _)))).
  - intros i Hi. specialize (P1 i Hi). destruct (Z.eq_dec (S i i) 0) as [Z0|]; [|lia]. exfalso. apply (equiv_det n _ _ _ _ _ _ EQS DN). apply (zero_col_det n S' i Hi). intros k Hk. destruct (Nat.eq_dec k i) as [->|Nk]; [rewrite <- SD by auto; auto|now apply D2].
  - exists L'. destruct T as (I1 & I2 & M). refine (conj I1 (conj I2 _)). eapply meq_trans; eauto.
Qed.
