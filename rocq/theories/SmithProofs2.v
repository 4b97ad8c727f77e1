(** Termination and shape of the diagonalisation. *)
From Verif Require Import Common ZMat HermiteProofs Det DetProofs Smith SmithSpec SmithProofs.
Open Scope Z_scope.

Section Shape.
Context (xg : Z -> Z -> Z * Z * Z) (XG : xgcd_contract xg) (n : nat).
Lemma xg_spec a b r s t : xg a b = (r, s, t) -> r = Z.gcd a b /\ a * s + b * t = r.
Proof. intros E. pose proof (XG a b) as X. now rewrite E in X. Qed.
Lemma zsum_list_cons x ts (l : list Z) r : zsum (length (r :: ts)) (fun k => nth k (r :: ts) 0 * nth k (x :: l) 0) = r * x + zsum (length ts) (fun k => nth k ts 0 * nth k l 0).
Proof. cbn [length]. rewrite zsum_head. reflexivity. Qed.
Lemma tail_spec l g ts : tail_gcd xg l = (g, ts) -> zsum (length ts) (fun k => nth k ts 0 * nth k l 0) = g /\ (forall x, In x l -> (g | x)) /\ ((2 <= length l)%nat -> 0 <= g).
Proof.
  revert g ts; induction l as [|x l IH]; intros g ts H; cbn [tail_gcd] in H; [inversion H; subst; refine (conj eq_refl (conj _ _)); [intros x []|cbn; lia]|].
  destruct l as [|y l].
  - inversion H; subst. refine (conj _ (conj _ _)); [cbn [length zsum nth]; ring| |cbn; lia]. intros z [<-|[]]. apply Z.divide_refl.
  - destruct (tail_gcd xg (y :: l)) as [g0 ts0]. destruct (xg x g0) as [[g' r] s] eqn:E. inversion H; subst g ts; clear H. apply xg_spec in E as [Eg Es]. destruct (IH g0 ts0 eq_refl) as (S0 & D0 & _). split; [|split].
    + rewrite zsum_list_cons, map_length. rewrite (zsum_ext (length ts0) _ (fun k => s * (nth k ts0 0 * nth k (y :: l) 0))).
      * rewrite zsum_scal, S0. lia.
      * intros k Hk. rewrite (nth_indep _ 0 (0 * s)) by (now rewrite map_length). rewrite (map_nth (fun t => t * s) ts0 0 k). ring.
    + assert (Dx : (g' | x)) by (rewrite Eg; apply Z.gcd_divide_l). assert (Dg : (g' | g0)) by (rewrite Eg; apply Z.gcd_divide_r).
      intros z [<-|Hz]; auto. eapply Z.divide_trans; [exact Dg|now apply D0].
    + intros _. rewrite Eg. apply Z.gcd_nonneg.
Qed.
Lemma tabv f i j : (i < n)%nat -> (j < n)%nat -> tab n f i j = f i j.
Proof. intros; now apply tab_meq. Qed.
(** What elimination along row o achieves. *)
Definition row_done (o : nat) (A A' : zmat) : Prop :=
  (forall d, (d | A' o o) <-> forall j, (o <= j < n)%nat -> (d | A o j)) /\
  (forall j, (o < j < n)%nat -> A' o j = 0 \/ (n = o + 2)%nat /\ A' o o < 0 /\ A' o j = 2 * A' o o) /\
  (forall i, (i < n)%nat -> (forall j, (o <= j < n)%nat -> A i j = 0) -> forall j, (o <= j < n)%nat -> A' i j = 0) /\
  (forall i j, (i < n)%nat -> (j < o)%nat -> A' i j = A i j).
Lemma elim_row_done o A R : (o + 1 < n)%nat -> exists A' R', elim_row xg n o A R = Ok (A', R') /\ row_done o A A'.
Proof.
  intros Ho. unfold elim_row. cbv zeta.
  match goal with |- context [tab n (?op A)] => set (op1 := op) end.
  assert (P1 : (op1 A o o = 0) /\ (forall d, (forall j, (o < j < n)%nat -> (d | op1 A o j)) <-> forall j, (o <= j < n)%nat -> (d | A o j)) /\
     (forall i, (forall j, (o <= j < n)%nat -> A i j = 0) -> forall j, (o <= j < n)%nat -> op1 A i j = 0) /\ (forall i j, (j < o)%nat -> op1 A i j = A i j)).
  { unfold op1. destruct (Z.eqb_spec (A o o) 0) as [E0|N0].
    - refine (conj E0 (conj _ (conj _ _))); auto. intros d. split; intros H j Hj; [|apply H; lia]. destruct (Nat.eq_dec j o) as [->|Nj]; [rewrite E0; apply Z.divide_0_r|apply H; lia].
    - destruct (Z.eqb_spec (A o (o + 1)%nat) 0) as [E1|N1].
      + unfold col2. refine (conj _ (conj _ (conj _ _))).
        * rewrite Nat.eqb_refl, E1. ring.
        * intros d. split; intros H j Hj.
          -- destruct (Nat.eq_dec j o) as [->|Nj]; [specialize (H (o + 1)%nat ltac:(lia)); rewrite (eqb_f (o + 1) o), Nat.eqb_refl in H by lia; replace (1 * A o o + 0 * A o (o + 1)%nat) with (A o o) in H by ring; auto|].
             destruct (Nat.eq_dec j (o + 1)) as [->|Nj1]; [rewrite E1; apply Z.divide_0_r|]. specialize (H j ltac:(lia)). now rewrite (eqb_f j o), (eqb_f j (o + 1)) in H by auto.
          -- rewrite (eqb_f j o) by lia. destruct (Nat.eqb_spec j (o + 1)); [|apply H; lia]. replace (1 * A o o + 0 * A o (o + 1)%nat) with (A o o) by ring. apply H. lia.
        * intros i H j Hj. rewrite !H by lia. destruct (j =? o)%nat, (j =? o + 1)%nat; reflexivity || (now rewrite H by lia).
        * intros i j Hj. now rewrite (eqb_f j o), (eqb_f j (o + 1)) by lia.
      + destruct (xg (A o o) (A o (o + 1)%nat)) as [[r x1] x2] eqn:EX. apply xg_spec in EX as [Er Ex]. assert (R0 : r <> 0) by (intros ->; symmetry in Er; apply Z.gcd_eq_0 in Er; lia).
        destruct (Z.gcd_divide_l (A o o) (A o (o + 1)%nat)) as [u Hu]. destruct (Z.gcd_divide_r (A o o) (A o (o + 1)%nat)) as [v Hv]. rewrite <- Er in Hu, Hv.
        assert (Q1 : A o (o + 1)%nat / r = v) by (rewrite Hv, Z.div_mul; auto). assert (Q2 : - A o o / r = - u) by (rewrite Hu, <- Z.mul_opp_l, Z.div_mul; auto). rewrite Q1, Q2.
        assert (Vr : x1 * A o o + x2 * A o (o + 1)%nat = r) by lia.
        unfold col2. refine (conj _ (conj _ (conj _ _))).
        * rewrite Nat.eqb_refl. rewrite Hu, Hv. ring.
        * intros d. split; intros H j Hj.
          -- assert (Hr : (d | r)) by (specialize (H (o + 1)%nat ltac:(lia)); rewrite (eqb_f (o + 1) o), Nat.eqb_refl, Vr in H by lia; auto).
             destruct (Nat.eq_dec j o) as [->|Nj]; [rewrite Hu; now apply Z.divide_mul_r|]. destruct (Nat.eq_dec j (o + 1)) as [->|Nj1]; [rewrite Hv; now apply Z.divide_mul_r|].
             specialize (H j ltac:(lia)). now rewrite (eqb_f j o), (eqb_f j (o + 1)) in H by auto.
          -- rewrite (eqb_f j o) by lia. destruct (Nat.eqb_spec j (o + 1)); [|apply H; lia]. apply Z.divide_add_r; apply Z.divide_mul_r; apply H; lia.
        * intros i H j Hj. destruct (Nat.eqb_spec j o); [rewrite !H by lia; ring|]. destruct (Nat.eqb_spec j (o + 1)); rewrite !H by lia; ring.
        * intros i j Hj. now rewrite (eqb_f j o), (eqb_f j (o + 1)) by lia. }
  destruct P1 as (P1a & P1b & P1c & P1d).
  match goal with |- context [tail_gcd xg ?l] => set (tl := l); destruct (tail_gcd xg tl) as [g ts] eqn:ET end.
  assert (LT : length ts = (n - o - 1)%nat) by (change ts with (snd (g, ts)); rewrite <- ET; rewrite tail_len; unfold tl; rewrite map_length, seq_length; reflexivity).
  destruct (tail_spec _ _ _ ET) as (TS & TD & TN).
  assert (TLn : forall k, (k < n - o - 1)%nat -> nth k tl 0 = op1 A o (o + 1 + k)%nat).
  { intros k Hk. unfold tl. rewrite nth_map_seq by auto. apply tabv; lia. }
  set (A2 := tab n (addcols o ts (tab n (op1 A)))).
  assert (A2v : forall i j, (i < n)%nat -> (j < n)%nat -> A2 i j = if (j =? o)%nat then op1 A i o + zsum (n - o - 1) (fun k => nth k ts 0 * op1 A i (o + 1 + k)%nat) else op1 A i j).
  { intros i j Hi Hj. unfold A2. rewrite tabv by auto. unfold addcols. rewrite LT. destruct (j =? o)%nat; [|now apply tabv]. rewrite tabv by lia. f_equal. apply zsum_ext. intros k Hk. rewrite tabv by lia. reflexivity. }
  assert (A2o : A2 o o = g).
  { rewrite A2v by lia. rewrite Nat.eqb_refl, P1a, <- TS, LT. rewrite Z.add_0_l. apply zsum_ext. intros k Hk. now rewrite TLn. }
  assert (GD : forall j, (o < j < n)%nat -> (g | A2 o j)).
  { intros j Hj. rewrite A2v by lia. rewrite (eqb_f j o) by lia. apply TD. replace (op1 A o j) with (nth (j - o - 1) tl 0) by (rewrite TLn by lia; f_equal; lia). apply nth_In. unfold tl. rewrite map_length, seq_length. lia. }
  assert (NOERR : (g =? 0) && negb (forallb (fun p => A2 o p =? 0) (seq (o + 1) (n - o - 1))) = false).
  { destruct (Z.eqb_spec g 0) as [G0|]; auto. cbn [andb]. apply Bool.negb_false_iff, forallb_forall. intros p Hp. apply in_seq in Hp. apply Z.eqb_eq. destruct (GD p ltac:(lia)) as [c ->]. rewrite G0. ring. }
  rewrite NOERR. match goal with |- context [subcols o ?q] => set (qq := q) end. eexists. eexists. split; [reflexivity|].
  assert (V : forall i j, (i < n)%nat -> (j < n)%nat -> tab n (subcols o qq A2) i j = if (o <? j)%nat then A2 i j - qq j * A2 i o else A2 i j) by (intros i j Hi Hj; rewrite tabv by auto; reflexivity).
  assert (Voo : tab n (subcols o qq A2) o o = g) by (rewrite V by lia; now rewrite Nat.ltb_irrefl).
  refine (conj _ (conj _ (conj _ _))).
  - intros d. rewrite Voo. rewrite <- P1b. split.
    + intros H j Hj. eapply Z.divide_trans; [exact H|]. specialize (GD j Hj). rewrite A2v in GD by lia. now rewrite (eqb_f j o) in GD by lia.
    + intros H. rewrite <- TS, LT. clear -H TLn. assert (X : forall m, (m <= n - o - 1)%nat -> (d | zsum m (fun k => nth k ts 0 * nth k tl 0))); [|now apply X].
      induction m as [|m IH]; intros Hm; cbn [zsum]; [apply Z.divide_0_r|]. apply Z.divide_add_r; [apply IH; lia|]. apply Z.divide_mul_r. rewrite TLn by lia. apply H. lia.
  - intros j Hj. rewrite Voo. rewrite V by lia. rewrite (proj2 (Nat.ltb_lt o j)) by lia. unfold qq. rewrite A2o. destruct (Z.eqb_spec (A2 o j) 0) as [E0|N0]; [left; lia|].
    destruct (GD j Hj) as [c Hc]. assert (G0 : g <> 0) by (intros ->; lia). destruct (Z.lt_ge_cases g 0) as [Ng|Pg].
    + right. assert (L1 : (length tl < 2)%nat) by (destruct (Nat.lt_ge_cases (length tl) 2); auto; specialize (TN ltac:(auto)); lia). unfold tl in L1. rewrite map_length, seq_length in L1.
      split; [lia|]. split; auto. rewrite Hc, Z.div_mul, Z.sgn_neg by auto.
      assert (Ej : A2 o j = g).
      { rewrite A2v by lia. rewrite (eqb_f j o) by lia. replace j with (o + 1 + 0)%nat by lia. rewrite <- TLn by lia. revert ET. unfold tl. replace (n - o - 1)%nat with 1%nat by lia. cbn [seq map tail_gcd]. intros ET. inversion ET. reflexivity. }
      rewrite Ej in Hc. assert (c = 1) by nia. subst c. ring.
    + left. rewrite Hc, Z.div_mul, Z.sgn_pos by lia. ring.
  - intros i Hi H j Hj. specialize (P1c i H). assert (Z2 : forall k, (o <= k < n)%nat -> A2 i k = 0).
    { intros k Hk. rewrite A2v by lia. destruct (k =? o)%nat; [|now apply P1c]. rewrite P1c by lia. rewrite zsum_zero; auto. intros l Hl. rewrite P1c by lia. ring. }
    rewrite V by lia. destruct (o <? j)%nat; rewrite !Z2 by lia; ring.
  - intros i j Hi Hj. rewrite V by lia. rewrite (proj2 (Nat.ltb_ge o j)) by lia. rewrite A2v by lia. rewrite (eqb_f j o) by lia. now apply P1d.
Qed.
(** Elimination along column o is elimination along row o of the transpose. *)
Lemma elim_col_tr o A L : (o + 1 < n)%nat -> forall A1 R1, elim_row xg n o (tr A) (tr L) = Ok (A1, R1) -> exists A2 L2, elim_col xg n o A L = Ok (A2, L2) /\ meq n n A2 (tr A1).
Proof.
  intros Ho A1 R1. unfold elim_row, elim_col. cbv zeta.
  match goal with |- context [tab n (?op (tr A))] => set (opr := op) end. match goal with |- context [tab n (?op A)] => set (opc := op) end.
  assert (EO : forall M i j, opr (tr M) i j = opc M j i).
  { intros M i j. unfold opr, opc. change (tr A o o) with (A o o). change (tr A o (o + 1)%nat) with (A (o + 1)%nat o). destruct (A o o =? 0); [reflexivity|]. destruct (A (o + 1)%nat o =? 0); [reflexivity|]. destruct (xg (A o o) (A (o + 1)%nat o)) as [[r x1] x2]. reflexivity. }
  assert (EL : map (fun k => tab n (opr (tr A)) o (o + 1 + k)%nat) (seq 0 (n - o - 1)) = map (fun k => tab n (opc A) (o + 1 + k)%nat o) (seq 0 (n - o - 1))).
  { apply map_ext_in. intros k Hk. apply in_seq in Hk. rewrite !tabv by lia. apply EO. }
  rewrite EL. match goal with |- context [tail_gcd xg ?l] => destruct (tail_gcd xg l) as [g ts] eqn:ET; assert (LT : length ts = (n - o - 1)%nat) by (change ts with (snd (g, ts)); rewrite <- ET; rewrite tail_len, map_length, seq_length; reflexivity) end.
  set (X := tab n (addcols o ts (tab n (opr (tr A))))). set (Y := tab n (addrows o ts (tab n (opc A)))).
  assert (EX : forall i j, (i < n)%nat -> (j < n)%nat -> X i j = Y j i).
  { intros i j Hi Hj. unfold X, Y. rewrite !tabv by auto. unfold addcols, addrows. rewrite LT. destruct (j =? o)%nat; [|rewrite !tabv by auto; apply EO]. rewrite !tabv by (auto; lia). rewrite EO. f_equal. apply zsum_ext. intros k Hk. rewrite !tabv by lia. now rewrite EO. }
  assert (EF : forallb (fun p => X o p =? 0) (seq (o + 1) (n - o - 1)) = forallb (fun p => Y p o =? 0) (seq (o + 1) (n - o - 1))).
  { assert (G : forall l, (forall p, In p l -> (p < n)%nat) -> forallb (fun p => X o p =? 0) l = forallb (fun p => Y p o =? 0) l).
    { induction l as [|p l IH]; intros H; [reflexivity|]. cbn [forallb]. rewrite EX by (try lia; apply H; now left). now rewrite IH by (intros; apply H; now right). }
    apply G. intros p Hp. apply in_seq in Hp. lia. }
  rewrite EF. destruct ((g =? 0) && negb (forallb (fun p => Y p o =? 0) (seq (o + 1) (n - o - 1)))); [discriminate|]. intros H. inversion H; subst A1; clear H. eexists. eexists. split; [reflexivity|].
  intros i j Hi Hj. unfold tr. rewrite !tabv by auto. unfold subrows, subcols. rewrite !EX by lia. reflexivity.
Qed.
Lemma elim_col_done o A L : (o + 1 < n)%nat -> exists A' L', elim_col xg n o A L = Ok (A', L') /\ row_done o (tr A) (tr A').
Proof.
  intros Ho. destruct (elim_row_done o (tr A) (tr L) Ho) as (A1 & R1 & E & (D1 & D2 & D3 & D4)). destruct (elim_col_tr o A L Ho A1 R1 E) as (A2 & L2 & E2 & M). exists A2, L2. split; auto.
  assert (EM : forall i j, (i < n)%nat -> (j < n)%nat -> tr A2 i j = A1 i j) by (intros i j Hi Hj; unfold tr; rewrite M by auto; reflexivity).
  refine (conj _ (conj _ (conj _ _))).
  - intros d. rewrite EM by lia. apply D1.
  - intros j Hj. rewrite !EM by lia. now apply D2.
  - intros i Hi H j Hj. rewrite EM by lia. now apply (D3 i Hi).
  - intros i j Hi Hj. rewrite EM by lia. now apply D4.
Qed.
(** Rows and columns before o vanish off the diagonal. *)
Definition clean (o : nat) (A : zmat) : Prop := forall i j, (i < n)%nat -> (j < n)%nat -> (i < o \/ j < o)%nat -> i <> j -> A i j = 0.
Lemma row_clean o A A' : row_done o A A' -> clean o A -> clean o A'.
Proof.
  intros (_ & _ & D3 & D4) C i j Hi Hj H N. destruct (Nat.lt_ge_cases j o) as [L|L]; [rewrite D4 by auto; now apply C|].
  apply (D3 i Hi); [|lia]. intros k Hk. apply C; lia.
Qed.
Lemma clean_tr o A : clean o A <-> clean o (tr A).
Proof. unfold clean, tr. split; intros C i j Hi Hj H N; apply C; auto; lia. Qed.
(** Columns o and beyond of row o after both eliminations. *)
Definition round_done (o : nat) (A A2 : zmat) : Prop :=
  (A2 o o | A o o) /\ (forall j, (o < j < n)%nat -> (A2 o o | A o j)) /\ ((exists j, (o <= j < n)%nat /\ A o j <> 0) -> A2 o o <> 0) /\
  (forall i, (o < i < n)%nat -> A2 i o = 0 \/ (n = o + 2)%nat /\ A2 o o < 0 /\ A2 i o = 2 * A2 o o) /\
  (A2 o o = 0 -> forall i, (o <= i < n)%nat -> A2 i o = 0) /\ (forall i, (i < o)%nat -> A2 i i = A i i).
Lemma round_ok o A L R : (o + 1 < n)%nat -> clean o A -> exists A1 R1 A2 L2, elim_row xg n o A R = Ok (A1, R1) /\ elim_col xg n o A1 L = Ok (A2, L2) /\ clean o A2 /\ round_done o A A2.
Proof.
  intros Ho C. destruct (elim_row_done o A R Ho) as (A1 & R1 & E1 & D). destruct (elim_col_done o A1 L Ho) as (A2 & L2 & E2 & D'). exists A1, R1, A2, L2. split; auto. split; auto.
  pose proof (row_clean o A A1 D C) as C1. pose proof (proj2 (clean_tr o A2) (row_clean o (tr A1) (tr A2) D' (proj1 (clean_tr o A1) C1))) as C2. split; auto.
  destruct D as (Da & Db & _ & Dd). destruct D' as (Da' & Db' & _ & Dd').
  change (tr A2 o o) with (A2 o o) in Da', Db'. change (forall j, (o < j < n)%nat -> A2 j o = 0 \/ (n = o + 2)%nat /\ A2 o o < 0 /\ A2 j o = 2 * A2 o o) in Db'.
  assert (D12 : (A2 o o | A1 o o)) by (apply (proj1 (Da' (A2 o o)) (Z.divide_refl _) o); lia).
  assert (DA : forall j, (o <= j < n)%nat -> (A2 o o | A o j)) by (intros j Hj; apply (proj1 (Da (A2 o o)) D12 j Hj)).
  refine (conj _ (conj _ (conj _ (conj Db' (conj _ _))))).
  - apply DA. lia.
  - intros j Hj. apply DA. lia.
  - intros (j & Hj & Nz) Z0. specialize (DA j Hj). rewrite Z0 in DA. apply Z.divide_0_l in DA. auto.
  - intros Z0 i Hi. destruct (Nat.eq_dec i o) as [->|N]; auto. destruct (Db' i ltac:(lia)) as [E|(_ & K & _)]; auto. lia.
  - intros i Hi. rewrite <- (Dd i i) by lia. change (tr A2 i i = tr A1 i i). apply Dd'; lia.
Qed.
(** At least one more round is needed only if the pivot gets smaller. *)
Lemma sweep_terminates : forall m o A L R, (o + 1 < n)%nat -> clean o A -> (A o o <> 0 -> check n o A = false -> Z.abs (A o o) <= Z.of_nat m) -> (A o o <> 0 /\ check n o A = false) ->
  exists A' L' R', (forall f, (m <= f)%nat -> sweep f xg n o A L R = Ok (A', L', R')) /\ clean o A' /\ check n o A' = true /\
   (A' o o = 0 -> forall i, (o <= i < n)%nat -> A' i o = 0) /\ (forall i, (o < i < n)%nat -> A' i o = 0 \/ (n = o + 2)%nat /\ A' o o < 0 /\ A' i o = 2 * A' o o) /\ (forall i, (i < o)%nat -> A' i i = A i i).
Proof.
  induction m as [|m IH]; intros o A L R Ho C B (N0 & CF); [specialize (B N0 CF); lia|].
  destruct (round_ok o A L R Ho C) as (A1 & R1 & A2 & L2 & E1 & E2 & C2 & (Ra & Rb & Rc & Rd & Re & Rf)).
  assert (LT : Z.abs (A2 o o) < Z.abs (A o o)).
  { assert (LE : Z.abs (A2 o o) <= Z.abs (A o o)) by (apply Z.divide_pos_le; [lia|]; now apply Z.divide_abs_l, Z.divide_abs_r). destruct (Z.eq_dec (Z.abs (A2 o o)) (Z.abs (A o o))) as [EQ|]; [|lia]. exfalso.
    unfold check in CF. rewrite (proj2 (Z.eqb_neq _ _) N0) in CF. assert (X : forallb (fun p => A o p mod A o o =? 0) (seq (o + 1) (n - o - 1)) = true); [|congruence].
    apply forallb_forall. intros p Hp. apply in_seq in Hp. apply Z.eqb_eq, Z.mod_divide; auto. specialize (Rb p ltac:(lia)). apply Z.divide_abs_l. rewrite <- EQ. now apply Z.divide_abs_l. }
  destruct (check n o A2) eqn:CK.
  - exists A2, L2, R1. split; [|auto]. intros f Hf. destruct f as [|f]; [lia|]. cbn [sweep]. rewrite E1. cbn [bind]. rewrite E2. cbn [bind]. now rewrite CK.
  - assert (N2 : A2 o o <> 0) by (apply Rc; exists o; split; auto; lia). specialize (B N0 CF).
    destruct (IH o A2 L2 R1 Ho C2) as (A' & L' & R' & G & H); [intros _ _; lia|auto|]. destruct H as (H1 & H2 & H3 & H4 & H5). exists A', L', R'. split; [|refine (conj H1 (conj H2 (conj H3 (conj H4 _)))); intros i Hi; rewrite H5, Rf; auto]. intros f Hf. destruct f as [|f]; [lia|]. cbn [sweep]. rewrite E1. cbn [bind]. rewrite E2. cbn [bind]. rewrite CK. apply G. lia.
Qed.
Lemma sweep_ok o A L R : (o + 1 < n)%nat -> clean o A -> exists fuel A' L' R', (forall f, (fuel <= f)%nat -> sweep f xg n o A L R = Ok (A', L', R')) /\ clean o A' /\ check n o A' = true /\
   (A' o o = 0 -> forall i, (o <= i < n)%nat -> A' i o = 0) /\ (forall i, (o < i < n)%nat -> A' i o = 0 \/ (n = o + 2)%nat /\ A' o o < 0 /\ A' i o = 2 * A' o o) /\ (forall i, (i < o)%nat -> A' i i = A i i).
Proof.
  intros Ho C. destruct (round_ok o A L R Ho C) as (A1 & R1 & A2 & L2 & E1 & E2 & C2 & (Ra & Rb & Rc & Rd & Re & Rf)). destruct (check n o A2) eqn:CK.
  - exists 1%nat, A2, L2, R1. split; [|auto]. intros f Hf. destruct f as [|f]; [lia|]. cbn [sweep]. rewrite E1. cbn [bind]. rewrite E2. cbn [bind]. now rewrite CK.
  - assert (N2 : A2 o o <> 0) by (intros Z0; unfold check in CK; rewrite (proj2 (Z.eqb_eq _ _) Z0) in CK; discriminate).
    destruct (sweep_terminates (Z.to_nat (Z.abs (A2 o o))) o A2 L2 R1 Ho C2) as (A' & L' & R' & G & H); [intros _ _; lia|auto|]. destruct H as (H1 & H2 & H3 & H4 & H5). exists (S (Z.to_nat (Z.abs (A2 o o)))), A', L', R'. split; [|refine (conj H1 (conj H2 (conj H3 (conj H4 _)))); intros i Hi; rewrite H5, Rf; auto].
    intros f Hf. destruct f as [|f]; [lia|]. cbn [sweep]. rewrite E1. cbn [bind]. rewrite E2. cbn [bind]. rewrite CK. apply G. lia.
Qed.
Lemma zero_col_det A o : (o < n)%nat -> (forall i, (i < n)%nat -> A i o = 0) -> det n A = 0.
Proof.
  intros Ho H. rewrite <- det_tr. rewrite (det_expand n _ o Ho). apply zsum_zero. intros j Hj. rewrite H by auto. ring.
Qed.
Lemma inv_det A : invertible n A -> det n A <> 0.
Proof. intros (B & I & _) Z0. pose proof (det_mul n A B) as E. rewrite (det_ext n _ delta I), det_id, Z0 in E. lia. Qed.
Lemma equiv_det A L R A' L' R' : equiv n (A, L, R) (A', L', R') -> det n A <> 0 -> det n A' <> 0.
Proof.
  intros (F & E & IF & IE & HA & _) N. rewrite (det_ext n _ _ HA), !det_mul. apply inv_det in IF. apply inv_det in IE. intros Z0. apply Z.mul_eq_0 in Z0 as [Z0|Z0]; auto. apply Z.mul_eq_0 in Z0 as [Z0|Z0]; auto.
Qed.
(** All off-diagonal entries but possibly (n-1, n-2) vanish. *)
Definition after (o : nat) (A : zmat) : Prop := forall i j, (i < n)%nat -> (j < n)%nat -> (i < o \/ j < o)%nat -> i <> j -> A i j = 0 \/ (i = n - 1)%nat /\ (j = n - 2)%nat /\ Z.abs (A i j) = 2 * Z.abs (A j j).
Lemma diag_in_ok k : forall A L R, (k < n)%nat -> clean (n - 1 - k) A -> (forall i, (i < n - 1 - k)%nat -> 0 <= A i i) -> det n A <> 0 -> exists fuel A' L' R', (forall f, (fuel <= f)%nat -> diag_in f xg n k A L R = Ok (A', L', R')) /\
  ((k = 0)%nat /\ A' = A \/ after (n - 1) A') /\ (forall i, (i < n - 1)%nat -> 0 <= A' i i).
Proof.
  induction k as [|k IH]; intros A L R Hk C PD DN; [exists 0%nat, A, L, R; split; [reflexivity|]; split; [now left|intros i Hi; apply PD; lia]|].
  set (o := (n - 1 - S k)%nat) in C, PD. assert (Ho : (o + 1 < n)%nat) by (unfold o; lia). assert (On : (o = n - 1 - S k)%nat) by reflexivity. clearbody o.
  destruct (sweep_ok o A L R Ho C) as (fuel1 & A1 & L1 & R1 & G1 & C1 & CK & Z1 & S1 & KD).
  assert (EQ1 : equiv n (A, L, R) (A1, L1, R1)) by (eapply (sweep_equiv xg XG n fuel1 o); auto).
  assert (DN1 : det n A1 <> 0) by (eapply equiv_det; eauto).
  assert (P0 : A1 o o <> 0).
  { intros Z0. apply DN1. apply (zero_col_det A1 o); [lia|]. intros i Hi. destruct (Nat.lt_ge_cases i o) as [Li|Li]; [apply C1; auto; lia|apply Z1; auto]. }
  set (A2 := tab n (if A1 o o <? 0 then negrow o A1 else A1)). set (L2 := tab n (if A1 o o <? 0 then negrow o L1 else L1)).
  assert (A2v : forall i j, (i < n)%nat -> (j < n)%nat -> A2 i j = if (A1 o o <? 0) && (i =? o)%nat then - A1 i j else A1 i j).
  { intros i j Hi Hj. unfold A2. rewrite tabv by auto. destruct (A1 o o <? 0); auto. }
  set (q := fun j => if A2 o o =? 0 then 0 else A2 o j / A2 o o). set (A3 := tab n (subcols o q A2)). set (R3 := tab n (subcols o q R1)).
  assert (EQ3 : equiv n (A1, L1, R1) (A3, L2, R3)).
  { eapply equiv_trans with (s2 := (A2, L2, R1)).
    - apply (equiv_row n (fun M => tab n (if A1 o o <? 0 then negrow o M else M))); try apply meq_refl. apply (rowop_tab n (fun M => if A1 o o <? 0 then negrow o M else M)). destruct (A1 o o <? 0); [apply negrow_op; lia|apply rowop_id].
    - apply (equiv_col n (fun M => tab n (subcols o q M))); try apply meq_refl. apply (colop_tab n (subcols o q)), subcols_op. lia. }
  assert (DN3 : det n A3 <> 0) by (eapply equiv_det; eauto).
  assert (A3v : forall i j, (i < n)%nat -> (j < n)%nat -> A3 i j = if (o <? j)%nat then A2 i j - q j * A2 i o else A2 i j) by (intros i j Hi Hj; unfold A3; rewrite tabv by auto; reflexivity).
  assert (P2 : A2 o o <> 0) by (rewrite A2v by lia; destruct (_ && _); lia).
  assert (ROW : forall j, (o < j < n)%nat -> A3 o j = 0).
  { intros j Hj. rewrite A3v by lia. rewrite (proj2 (Nat.ltb_lt o j)) by lia. unfold q. rewrite (proj2 (Z.eqb_neq _ _) P2).
    assert (DV : (A2 o o | A2 o j)).
    { unfold check in CK. rewrite (proj2 (Z.eqb_neq _ _) P0) in CK. rewrite forallb_forall in CK. specialize (CK j ltac:(apply in_seq; lia)). apply Z.eqb_eq, Z.mod_divide in CK; auto. rewrite !A2v by lia. rewrite Nat.eqb_refl. destruct (A1 o o <? 0); cbn [andb]; auto. now apply Z.divide_opp_l, Z.divide_opp_r. }
    destruct DV as [c Hc]. rewrite Hc, Z.div_mul by auto. ring. }
  assert (COL : forall i, (o < i < n)%nat -> A3 i o = 0 \/ (n = o + 2)%nat /\ Z.abs (A3 i o) = 2 * Z.abs (A3 o o)).
  { intros i Hi. rewrite !A3v by lia. rewrite Nat.ltb_irrefl. rewrite !A2v by lia. rewrite Nat.eqb_refl, (eqb_f i o), Bool.andb_false_r by lia. destruct (S1 i Hi) as [E|(E1 & E2 & E3)]; [now left|right]. split; auto. rewrite E3. rewrite (proj2 (Z.ltb_lt _ _) E2). cbn [andb]. lia. }
  assert (OLD : forall i j, (i < n)%nat -> (j < n)%nat -> (i < o \/ j < o)%nat -> i <> j -> A3 i j = 0).
  { assert (OLD2 : forall i j, (i < n)%nat -> (j < n)%nat -> (i < o \/ j < o)%nat -> i <> j -> A2 i j = 0) by (intros i j Hi Hj H N; rewrite A2v by auto; rewrite (C1 i j Hi Hj H N); now destruct (_ && _)).
    intros i j Hi Hj H N. rewrite A3v by auto. destruct (Nat.ltb_spec o j); [|now apply OLD2]. rewrite (OLD2 i j), (OLD2 i o) by (auto; lia). ring. }
  assert (DI : forall f, (fuel1 <= f)%nat -> diag_in f xg n (S k) A L R = diag_in f xg n k A3 L2 R3).
  { intros f Hf. cbn [diag_in]. rewrite <- On. rewrite G1 by auto. cbn [bind]. reflexivity. }
  assert (PD3 : forall i, (i <= o)%nat -> 0 <= A3 i i).
  { intros i Hi. rewrite A3v by lia. rewrite (proj2 (Nat.ltb_ge o i)) by lia. rewrite A2v by lia. destruct (Nat.eq_dec i o) as [->|Ni].
    - rewrite Nat.eqb_refl. destruct (Z.ltb_spec (A1 o o) 0); cbn [andb]; lia.
    - rewrite (eqb_f i o), Bool.andb_false_r by auto. rewrite KD by lia. apply PD. lia. }
  destruct k as [|k].
  - (* last offset: o = n - 2 *)
    exists fuel1, A3, L2, R3. split; [intros f Hf; now rewrite DI by auto|]. split; [|intros i Hi; apply PD3; lia]. right. intros i j Hi Hj H N. destruct (Nat.eq_dec i o) as [->|Ni].
    + left. destruct (Nat.lt_ge_cases j o); [apply OLD; auto|apply ROW; lia].
    + destruct (Nat.eq_dec j o) as [->|Nj].
      * destruct (Nat.lt_ge_cases i o); [left; apply OLD; auto|]. destruct (COL i ltac:(lia)) as [E|[E1 E2]]; [now left|right]. split; [lia|]. split; [lia|exact E2].
      * left. apply OLD; auto. lia.
  - destruct (IH A3 L2 R3) as (fuel2 & A' & L' & R' & G2 & H2 & P'); [lia| |intros i Hi; apply PD3; lia|auto|].
    + intros i j Hi Hj H N. destruct (Nat.lt_ge_cases i o) as [|Gi]; [apply OLD; auto|]. destruct (Nat.lt_ge_cases j o) as [|Gj]; [apply OLD; auto|].
      destruct (Nat.eq_dec i o) as [->|Ni]; [apply ROW; lia|]. assert (j = o) as -> by lia. destruct (COL i ltac:(lia)) as [E|[E _]]; auto. lia.
    + exists (Nat.max fuel1 fuel2), A', L', R'. split; [intros f Hf; rewrite DI by lia; apply G2; lia|]. split; auto. destruct H2 as [[]|H2]; [lia|now right].
Qed.
Theorem diagonalize_shape A : (0 < n)%nat -> det n A <> 0 -> exists fuel D L R, (forall f, (fuel <= f)%nat -> diagonalize f xg n A = Ok (D, L, R)) /\
  (forall i j, (i < n)%nat -> (j < n)%nat -> i <> j -> D i j = 0 \/ (i = n - 1)%nat /\ (j = n - 2)%nat /\ Z.abs (D i j) = 2 * Z.abs (D j j)) /\ (forall i, (i < n)%nat -> 0 <= D i i).
Proof.
  intros Hn DN. destruct (diag_in_ok (n - 1) A delta delta) as (fuel & A' & L' & R' & G & H & PD); [lia|intros i j Hi Hj X; lia|intros i Hi; lia|auto|].
  exists fuel. unfold diagonalize. rewrite (proj2 (Nat.eqb_neq n 0)) by lia.
  assert (SH : forall i j, (i < n)%nat -> (j < n)%nat -> i <> j -> A' i j = 0 \/ (i = n - 1)%nat /\ (j = n - 2)%nat /\ Z.abs (A' i j) = 2 * Z.abs (A' j j)).
  { destruct H as [[E _]|H]; intros i j Hi Hj N; [lia|]. apply H; auto. lia. }
  exists (if A' (n - 1)%nat (n - 1)%nat <? 0 then tab n (negrow (n - 1) A') else A'), (if A' (n - 1)%nat (n - 1)%nat <? 0 then tab n (negrow (n - 1) L') else L'), R'. split.
  - intros f Hf. rewrite G by auto. cbn [bind]. now destruct (A' (n - 1)%nat (n - 1)%nat <? 0).
  - split; [|intros i Hi; destruct (Z.ltb_spec (A' (n - 1)%nat (n - 1)%nat) 0); [rewrite tabv by auto; unfold negrow; destruct (Nat.eqb_spec i (n - 1)) as [->|Ni]; [lia|apply PD; lia]|destruct (Nat.eq_dec i (n - 1)) as [->|Ni]; [lia|apply PD; lia]]].
    intros i j Hi Hj N. destruct (A' (n - 1)%nat (n - 1)%nat <? 0); [|now apply SH]. rewrite !tabv by auto. unfold negrow. destruct (SH i j Hi Hj N) as [E|(E1 & E2 & E3)].
    + left. destruct (i =? n - 1)%nat; lia.
    + right. split; auto. split; auto. rewrite (eqb_f j (n - 1)) by lia. destruct (i =? n - 1)%nat; lia.
Qed.
End Shape.
(** The second phase leaves off-diagonal entries alone. *)
Lemma pair_step_off xg n i j s a b : (a < n)%nat -> (b < n)%nat -> a <> b -> dA (fst (pair_step xg n i j s)) a b = dA s a b.
Proof.
  intros Ha Hb N. destruct s as [[A L] R]. unfold pair_step. destruct (A i i =? 1); [reflexivity|]. destruct (A j j =? 0); [reflexivity|].
  assert (O : forall B k v, set_ent B k k v a b = B a b) by (intros B k v; unfold set_ent; destruct (Nat.eqb_spec a k); destruct (Nat.eqb_spec b k); auto; lia).
  destruct (A i i =? 0); [|destruct (xg (A j j) (A i i)) as [[g y] x]]; unfold dA; cbn [fst]; rewrite tab_meq, !O by auto; reflexivity.
Qed.
Lemma pair_row_off xg n i js s a b : (a < n)%nat -> (b < n)%nat -> a <> b -> dA (pair_row xg n i js s) a b = dA s a b.
Proof.
  intros Ha Hb N. revert s; induction js as [|j js IH]; intros s; cbn [pair_row]; auto. pose proof (pair_step_off xg n i j s a b Ha Hb N) as E. destruct (pair_step xg n i j s) as [s' stop]. cbn [fst] in E. destruct stop; auto. now rewrite IH.
Qed.
Lemma pairs_off xg n s a b : (a < n)%nat -> (b < n)%nat -> a <> b -> dA (pairs xg n s) a b = dA s a b.
Proof.
  intros Ha Hb N. unfold pairs. revert s; induction (seq 0 n) as [|i l IH]; intros s; cbn [fold_left]; auto. rewrite IH. now apply pair_row_off.
Qed.
(** The second phase keeps the diagonal non-negative. *)
Definition nonneg_diag (n : nat) (s : zmat * zmat * zmat) : Prop := forall i, (i < n)%nat -> 0 <= dA s i i.
Lemma pair_step_nonneg xg n i j s : xgcd_contract xg -> (i < n)%nat -> (j < n)%nat -> i <> j -> nonneg_diag n s -> nonneg_diag n (fst (pair_step xg n i j s)).
Proof.
  intros XG Hi Hj N P. destruct s as [[A L] R]. unfold pair_step. unfold nonneg_diag, dA in P. cbn [fst] in P. destruct (A i i =? 1); [exact P|]. destruct (A j j =? 0); [exact P|].
  assert (V : forall B k v a, set_ent B k k v a a = if (a =? k)%nat then v else B a a) by (intros B k v a; unfold set_ent; destruct (a =? k)%nat; reflexivity).
  destruct (Z.eqb_spec (A i i) 0); [|destruct (xg (A j j) (A i i)) as [[g y] x] eqn:E]; intros a Ha; unfold dA; cbn [fst]; rewrite tab_meq, !V by auto.
  - destruct (a =? j)%nat; auto. destruct (a =? i)%nat; auto.
  - apply (xg_spec xg XG) in E as [-> _]. pose proof (Z.gcd_nonneg (A j j) (A i i)). destruct (a =? i)%nat; auto. destruct (a =? j)%nat; auto.
    apply Z.mul_nonneg_nonneg; auto. apply Z.div_pos; auto. assert (Z.gcd (A j j) (A i i) <> 0) by (intros Z0; apply Z.gcd_eq_0_r in Z0; auto). lia.
Qed.
Lemma pair_row_nonneg xg n i js s : xgcd_contract xg -> (i < n)%nat -> (forall j, In j js -> (i < j < n)%nat) -> nonneg_diag n s -> nonneg_diag n (pair_row xg n i js s).
Proof.
  intros XG Hi. revert s; induction js as [|j js IH]; intros s H P; cbn [pair_row]; auto. assert (HJ := H j (or_introl eq_refl)). pose proof (pair_step_nonneg xg n i j s XG Hi ltac:(lia) ltac:(lia) P) as E.
  destruct (pair_step xg n i j s) as [s' stop]. cbn [fst] in E. destruct stop; auto. apply IH; auto. intros k Hk. apply H. now right.
Qed.
Lemma pairs_nonneg xg n s : xgcd_contract xg -> nonneg_diag n s -> nonneg_diag n (pairs xg n s).
Proof.
  intros XG. unfold pairs. assert (G : forall l s, (forall i, In i l -> (i < n)%nat) -> nonneg_diag n s -> nonneg_diag n (fold_left (fun st i => pair_row xg n i (seq (i + 1) (n - i - 1)) st) l s)).
  { induction l as [|i l IH]; intros s0 H P; cbn [fold_left]; auto. apply IH; [intros; apply H; now right|]. apply pair_row_nonneg; auto; [apply H; now left|]. intros j Hj. apply in_seq in Hj. lia. }
  apply G. intros i Hi. apply in_seq in Hi. lia.
Qed.
Theorem smith_total xg n A : xgcd_contract xg -> (0 < n)%nat -> det n A <> 0 -> exists fuel S L R, (forall f, (fuel <= f)%nat -> smith f xg n A = Ok (S, L, R)) /\
  (forall i j, (i < n)%nat -> (j < n)%nat -> i <> j -> S i j = 0 \/ (i = n - 1 /\ j = n - 2)%nat) /\ (forall i, (i < n)%nat -> 0 <= S i i) /\
  (diagonal n S -> smith_transform n A S L R).
Proof.
  intros XG Hn DN. destruct (diagonalize_shape xg XG n A Hn DN) as (fuel & D & L0 & R0 & G & SH & PD). exists fuel.
  destruct (pairs xg n (D, L0, R0)) as [[S L] R] eqn:EP. assert (OFF : forall a b, (a < n)%nat -> (b < n)%nat -> a <> b -> S a b = D a b).
  { intros a b Ha Hb N. pose proof (pairs_off xg n (D, L0, R0) a b Ha Hb N) as E. rewrite EP in E. exact E. }
  exists S, L, R. split; [intros f Hf; unfold smith; rewrite G by auto; cbn [bind]; now rewrite EP|]. split.
  - intros i j Hi Hj N. rewrite OFF by auto. destruct (SH i j Hi Hj N) as [E|(E1 & E2 & _)]; [now left|now right].
  - split; [intros i Hi; pose proof (pairs_nonneg xg n (D, L0, R0) XG PD i Hi) as E; rewrite EP in E; exact E|]. intros DS. destruct (smith_ok xg XG n fuel A D L0 R0 (G fuel ltac:(lia))) as [_ H]. destruct H as (S' & L' & R' & E & _ & T).
    + intros i j Hi Hj N. rewrite <- OFF by auto. now apply DS.
    + unfold smith in E. rewrite G in E by lia. cbn [bind] in E. rewrite EP in E. inversion E; subst. exact T.
Qed.
(** An XGCD meeting the contract exists. *)
Fixpoint euclid (fuel : nat) (a b : Z) : Z * Z * Z :=
  match fuel with
  | O => (Z.abs a, Z.sgn a, 0)
  | S f => if b =? 0 then (Z.abs a, Z.sgn a, 0) else let '(d, s, t) := euclid f b (a mod b) in (d, t, s - t * (a / b))
  end.
Definition xgcd_euclid (a b : Z) : Z * Z * Z := euclid (S (Z.to_nat (Z.abs b))) a b.
Lemma euclid_ok fuel : forall a b, (Z.abs b < Z.of_nat fuel) -> let '(d, s, t) := euclid fuel a b in d = Z.gcd a b /\ a * s + b * t = d.
Proof.
  induction fuel as [|f IH]; intros a b H; [lia|]. cbn [euclid]. destruct (Z.eqb_spec b 0) as [->|N]; [rewrite Z.gcd_0_r; split; auto; nia|].
  assert (B : Z.abs (a mod b) < Z.of_nat f) by (assert (M := Z.mod_bound_or a b N); lia). specialize (IH b (a mod b) B). destruct (euclid f b (a mod b)) as [[d s] t]. destruct IH as [E1 E2]. split.
  - rewrite E1. rewrite (Z.gcd_comm b), Z.gcd_mod by auto. apply Z.gcd_comm.
  - rewrite <- E2. pose proof (Z.div_mod a b N) as DM. set (q := a / b) in *. set (r := a mod b) in *. rewrite DM. ring.
Qed.
Theorem xgcd_euclid_contract : xgcd_contract xgcd_euclid.
Proof. intros a b. apply euclid_ok. lia. Qed.
