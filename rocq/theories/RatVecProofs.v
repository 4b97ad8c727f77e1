From Coq Require Import QArith Qfield Znumtheory.
From Verif Require Import Common RatVec RatVecSpec.
Open Scope Z_scope.

Lemma nth_upd {A} (l : list A) i x j d : (i < length l)%nat ->
  nth j (upd l i x) d = if Nat.eqb j i then x else nth j l d.
Proof.
  intros H. destruct (Nat.eqb_spec j i) as [->|N].
  - now apply nth_upd_eq.
  - apply nth_upd_neq. congruence.
Qed.

Lemma Forall_upd {A} (P : A -> Prop) l i x : Forall P l -> P x -> Forall P (upd l i x).
Proof.
  intros H Hx. revert i. induction H as [|y l Hy H IH]; intros [|i]; simpl; constructor; auto.
Qed.

Lemma zdiv_ok a b : b <> 0 -> zdiv a b = Ok (a / b).
Proof. intros H. unfold zdiv. now destruct (Z.eqb_spec b 0). Qed.

Lemma gcd_nz_r a b : b <> 0 -> 0 < Z.gcd a b.
Proof.
  intros H. pose proof (Z.gcd_nonneg a b). assert (Z.gcd a b <> 0); [|lia].
  intros E. apply Z.gcd_eq_0_r in E. contradiction.
Qed.

Lemma lcm_code_ok a b : a <> 0 -> b <> 0 ->
  exists f, lcm_code a b = Ok f /\ f <> 0 /\ (a | f) /\ (b | f) /\
    (forall t, (a | t) -> (b | t) -> (f | t)) /\ (0 < a -> 0 < b -> 0 < f).
Proof.
  intros Ha Hb. unfold lcm_code. pose proof (gcd_nz_r a b Hb) as G. rewrite zdiv_ok by lia. cbn [bind].
  exists (a * (b / Z.gcd a b)). split; [reflexivity|].
  destruct (Z.gcd_divide_r a b) as [k Hk]. destruct (Z.gcd_divide_l a b) as [m Hm].
  assert (Eb : b / Z.gcd a b = k) by (rewrite Hk at 1; apply Z.div_mul; lia).
  assert (L : Z.lcm a b = Z.abs (a * (b / Z.gcd a b))) by reflexivity.
  rewrite Eb in *. set (g := Z.gcd a b) in *.
  assert (k <> 0) by nia.
  split; [nia|]. split; [exists k; lia|]. split.
  - exists m. rewrite Hm at 1. rewrite Hk at 1. lia.
  - split.
    + intros t H1 H2. apply Z.divide_abs_l. rewrite <- L. now apply Z.lcm_least.
    + intros. nia.
Qed.

Lemma lcm_loop_ok ds : forall acc, acc <> 0 -> Forall nonzero ds ->
  exists f, lcm_loop acc ds = Ok f /\ f <> 0 /\ (acc | f) /\ Forall (fun d => (d | f)) ds /\
    (forall t, (acc | t) -> Forall (fun d => (d | t)) ds -> (f | t)) /\
    (0 < acc -> Forall positive ds -> 0 < f).
Proof.
  induction ds as [|d ds IH]; intros acc Ha Hd; cbn [lcm_loop].
  - exists acc. repeat split; auto. apply Z.divide_refl.
  - inversion Hd as [|? ? Hd1 Hd2]; subst.
    destruct (lcm_code_ok acc d Ha Hd1) as (f & E & F1 & F2 & F3 & F4 & F5). rewrite E. cbn [bind].
    destruct (IH f F1 Hd2) as (h & E2 & G1 & G2 & G3 & G4 & G5). exists h.
    split; [exact E2|]. split; [exact G1|]. split; [eapply Z.divide_trans; eauto|].
    split; [constructor; [eapply Z.divide_trans; eauto|exact G3]|]. split.
    + intros t H1 H2. inversion H2; subst. apply G4; auto.
    + intros P1 P2. inversion P2; subst. apply G5; auto.
Qed.

Lemma scale_loop_ok f : forall ns ds, length ns = length ds -> Forall nonzero ds -> Forall (fun d => (d | f)) ds ->
  exists w, scale_loop f ns ds = Ok w /\ length w = length ns /\
    forall i, (i < length ns)%nat -> nth i w 0 * nth i ds 1 = f * nth i ns 0.
Proof.
  induction ns as [|n ns IH]; intros [|d ds] HL Hd Hf; cbn [scale_loop]; try discriminate.
  - exists []. repeat split; auto. intros i Hi; simpl in Hi; lia.
  - inversion Hd as [|? ? Hd1 Hd2]; inversion Hf as [|? ? Hf1 Hf2]; subst. rewrite zdiv_ok by exact Hd1. cbn [bind].
    destruct (IH ds) as (w & E & L & V); [simpl in HL; lia|assumption|assumption|]. rewrite E. cbn [bind].
    eexists; split; [reflexivity|]. split; [simpl; lia|].
    intros [|i] Hi; cbn [nth].
    + destruct Hf1 as [k Hk]. rewrite Hk. rewrite Z.div_mul by exact Hd1. lia.
    + apply V. simpl in Hi; lia.
Qed.

(** The representation invariant. *)
Definition cache_ok (v : rvec) : Prop :=
  length (iscale v) = dim v /\ ifactor v <> 0 /\
  (forall i, (i < dim v)%nat -> nth i (iscale v) 0 * den_at v i = ifactor v * num_at v i) /\
  (forall i, (i < dim v)%nat -> (den_at v i | ifactor v)) /\
  ((0 < dim v)%nat -> forall t, (forall i, (i < dim v)%nat -> (den_at v i | t)) -> (ifactor v | t)).
Definition inv (P : Z -> Prop) (v : rvec) : Prop :=
  length (denominator v) = dim v /\ Forall P (denominator v) /\
  (computed v = true -> cache_ok v /\ (Forall positive (denominator v) -> (0 < dim v)%nat -> 0 < ifactor v)).

Definition good (P : Z -> Prop) : Prop := (forall d, P d -> d <> 0) /\ P 1 /\
  (forall d e, P d -> P e -> P (d * e)) /\ (forall d g, 0 < g -> (g | d) -> P d -> P (d / g)).
Lemma good_nonzero : good nonzero.
Proof.
  unfold nonzero. split; [auto|]. split; [lia|]. split; [nia|].
  intros d g Hg [k ->] H. rewrite Z.div_mul by lia. nia.
Qed.
Lemma good_positive : good positive.
Proof.
  unfold positive. split; [lia|]. split; [lia|]. split; [nia|].
  intros d g Hg [k ->] H. rewrite Z.div_mul by lia. nia.
Qed.

Lemma Forall_den (P : Z -> Prop) v i : P 1 -> Forall P (denominator v) -> P (den_at v i).
Proof.
  intros H1 H. unfold den_at. destruct (Nat.lt_ge_cases i (length (denominator v))) as [L|L].
  - rewrite Forall_forall in H. apply H. now apply nth_In.
  - now rewrite nth_overflow.
Qed.

Section WithP.
Variable P : Z -> Prop.
Hypothesis GP : good P.
Lemma P_nz l : Forall P l -> Forall nonzero l.
Proof. apply Forall_impl. intros; now apply GP. Qed.

Lemma compute_ok v : length (denominator v) = dim v -> Forall P (denominator v) ->
  exists v', compute_integer_scale v = Ok v' /\ enumerator v' = enumerator v /\
    denominator v' = denominator v /\ computed v' = true /\ inv P v'.
Proof.
  intros HL HP. unfold compute_integer_scale.
  destruct (lcm_loop_ok (denominator v) 1) as (f & E & F1 & F2 & F3 & F4 & F5); [lia|now apply P_nz|].
  rewrite E. cbn [bind].
  destruct (scale_loop_ok f (enumerator v) (denominator v)) as (w & E2 & L2 & V2); [unfold dim in HL; lia|now apply P_nz|assumption|].
  rewrite E2. cbn [bind]. eexists; split; [reflexivity|]. repeat (split; [reflexivity|]).
  split; [exact HL|]. split; [exact HP|]. intros _. split.
  - split; [exact L2|]. split; [exact F1|]. split; [exact V2|]. split.
    + intros i Hi. unfold den_at. cbn. rewrite Forall_forall in F3. apply F3. apply nth_In. rewrite HL. exact Hi.
    + intros _ t Ht. apply F4; [apply Z.divide_1_l|]. rewrite Forall_forall. intros d Hd.
      apply (In_nth _ _ 1) in Hd as (i & Hi & <-). apply Ht. unfold dim in *; cbn in *. lia.
  - intros Hp _. apply F5; [lia|exact Hp].
Qed.

Lemma inv_new c v : ctor_ok P c -> rnew c = Ok v -> inv P v /\ dim v = ctor_dim c.
Proof.
  destruct c as [n|ns d|ns ds]; cbn; intros H E.
  - injection E as <-. split; [|unfold dim; simpl; apply repeat_length].
    split; [unfold dim; simpl; now rewrite !repeat_length|]. split; [|discriminate].
    cbn. apply Forall_forall. intros x Hx. apply repeat_spec in Hx. now subst.
  - injection E as <-. split; [|reflexivity]. split; [unfold dim; simpl; apply repeat_length|]. split.
    + cbn. apply Forall_forall. intros x Hx. apply repeat_spec in Hx. now subst.
    + intros _.
      assert (R : forall i, (i < length ns)%nat -> den_at (rv_scalar ns d) i = d).
      { intros i Hi. unfold den_at; cbn.
        rewrite (nth_indep _ 1 d) by (now rewrite repeat_length). apply nth_repeat. }
      split.
      * split; [reflexivity|]. split; [now apply GP|]. split; [|split].
        -- intros i Hi. rewrite R by exact Hi. unfold num_at; cbn. lia.
        -- intros i Hi. rewrite R by exact Hi. cbn. apply Z.divide_refl.
        -- intros H0 t Ht. cbn. rewrite <- (R 0%nat) by exact H0. now apply Ht.
      * cbn. intros Hp H0. unfold dim in H0; cbn in H0. destruct ns as [|x ns]; [simpl in H0; lia|].
        simpl in Hp. now inversion Hp.
  - destruct H as [HL HP]. unfold rv_pair in E. rewrite HL, Nat.eqb_refl in E. injection E as <-.
    split; [|reflexivity]. split; [unfold dim; simpl; lia|]. split; [exact HP|discriminate].
Qed.

Definition same_den (v v' : rvec) := denominator v' = denominator v.

Lemma upd_length_dim v i n : dim (mkRV (upd (enumerator v) i n) (denominator v) (computed v) (iscale v) (ifactor v)) = dim v.
Proof. unfold dim; cbn. apply length_upd. Qed.

Lemma set_entry_ok v i n d lazy : inv P v -> (i < dim v)%nat -> P d ->
  exists v', set_entry v i n d lazy = Ok v' /\ inv P v' /\ dim v' = dim v /\
    enumerator v' = upd (enumerator v) i n /\ denominator v' = upd (denominator v) i d.
Proof.
  intros (I1 & I2 & I3) Hi Hd. unfold set_entry, in_range. fold (dim v).
  destruct (Nat.ltb_spec i (dim v)); [|lia]. cbn [enumerator denominator].
  assert (A : length (upd (denominator v) i d) = length (upd (enumerator v) i n)) by (rewrite !length_upd; exact I1).
  destruct lazy.
  - eexists; split; [reflexivity|]. split; [|split; [unfold dim; cbn; apply length_upd|split; reflexivity]].
    split; [exact A|]. split; [now apply Forall_upd|discriminate].
  - destruct (compute_ok (mkRV (upd (enumerator v) i n) (upd (denominator v) i d) (computed v) (iscale v) (ifactor v)))
      as (v' & E & E1 & E2 & E3 & E4); [exact A|now apply Forall_upd|].
    exists v'. split; [exact E|]. split; [exact E4|]. split; [unfold dim; rewrite E1; cbn; apply length_upd|]. auto.
Qed.

Lemma set_numerator_ok v i n : inv P v -> (i < dim v)%nat ->
  exists v', set_numerator v i n = Ok v' /\ inv P v' /\ dim v' = dim v /\
    enumerator v' = upd (enumerator v) i n /\ denominator v' = denominator v.
Proof.
  intros (I1 & I2 & I3) Hi. unfold set_numerator, in_range. fold (dim v).
  destruct (Nat.ltb_spec i (dim v)); [|lia].
  edestruct (compute_ok (mkRV (upd (enumerator v) i n) (denominator v) (computed v) (iscale v) (ifactor v)))
      as (v' & E & E1 & E2 & E3 & E4); [unfold dim in *; cbn; rewrite length_upd; exact I1|exact I2|].
  exists v'. split; [exact E|]. split; [exact E4|]. split; [unfold dim; rewrite E1; cbn; apply length_upd|]. auto.
Qed.

Lemma set_denominator_ok v i d : inv P v -> (i < dim v)%nat -> P d ->
  exists v', set_denominator v i d = Ok v' /\ inv P v' /\ dim v' = dim v /\
    enumerator v' = enumerator v /\ denominator v' = upd (denominator v) i d.
Proof.
  intros (I1 & I2 & I3) Hi Hd. unfold set_denominator, in_range. fold (dim v).
  destruct (Nat.ltb_spec i (dim v)); [|lia].
  edestruct (compute_ok (mkRV (enumerator v) (upd (denominator v) i d) (computed v) (iscale v) (ifactor v)))
      as (v' & E & E1 & E2 & E3 & E4); [unfold dim in *; cbn; rewrite length_upd; exact I1|now apply Forall_upd|].
  exists v'. split; [exact E|]. split; [exact E4|]. split; [unfold dim; rewrite E1; reflexivity|]. auto.
Qed.

(** Reduction of the coordinates. *)
Lemma reduce_loop_ok : forall ns ds ch, length ns = length ds -> Forall P ds ->
  exists ns' ds' ch', reduce_loop ns ds ch = Ok (ns', ds', ch') /\
    length ns' = length ns /\ length ds' = length ds /\ Forall P ds' /\
    (ch' = false -> ch = false /\ ns' = ns /\ ds' = ds) /\
    (forall i, (i < length ns)%nat -> Z.gcd (nth i ns' 0) (nth i ds' 1) = 1 /\
       exists g, 0 < g /\ nth i ns 0 = nth i ns' 0 * g /\ nth i ds 1 = nth i ds' 1 * g).
Proof.
  induction ns as [|n ns IH]; intros [|d ds] ch HL HP; cbn [reduce_loop]; try discriminate.
  - exists [], [], ch. repeat (split; auto). all: simpl in *; lia.
  - inversion HP as [|? ? Hd HPs]; subst. assert (d <> 0) by now apply GP.
    pose proof (gcd_nz_r n d H) as G. simpl in HL.
    destruct (Z.eqb_spec (Z.gcd n d) 1) as [E|E].
    + destruct (IH ds ch) as (ns' & ds' & ch' & E1 & L1 & L2 & F & C & V); [lia|assumption|]. rewrite E1. cbn [bind].
      exists (n :: ns'), (d :: ds'), ch'. split; [reflexivity|]. split; [simpl; lia|]. split; [simpl; lia|].
      split; [constructor; auto|]. split.
      * intros Hc. destruct (C Hc) as (-> & -> & ->). auto.
      * intros [|i] Hi; cbn [nth].
        -- split; [exact E|]. exists 1. lia.
        -- apply V. simpl in Hi; lia.
    + rewrite !zdiv_ok by lia. cbn [bind].
      destruct (IH ds true) as (ns' & ds' & ch' & E1 & L1 & L2 & F & C & V); [lia|assumption|]. rewrite E1. cbn [bind].
      exists (n / Z.gcd n d :: ns'), (d / Z.gcd n d :: ds'), ch'. split; [reflexivity|]. split; [simpl; lia|]. split; [simpl; lia|].
      split; [constructor; auto; apply GP; auto; apply Z.gcd_divide_r|]. split.
      * intros Hc. destruct (C Hc) as (K & _). discriminate.
      * intros [|i] Hi; cbn [nth].
        -- split; [apply Z.gcd_div_gcd; [lia|reflexivity]|]. exists (Z.gcd n d). split; [lia|].
           destruct (Z.gcd_divide_r n d) as [k Hk]. destruct (Z.gcd_divide_l n d) as [m Hm].
           split; [rewrite Hm at 2|rewrite Hk at 2]; rewrite Z.div_mul by lia; lia.
        -- apply V. simpl in Hi; lia.
Qed.

Lemma canonicalize_vec_ok v : inv P v ->
  exists v', canonicalize_vec v (dim v) = Ok v' /\ inv P v' /\ dim v' = dim v /\ computed v' = true /\
    (forall i, (i < dim v)%nat -> Z.gcd (num_at v' i) (den_at v' i) = 1 /\
       exists g, 0 < g /\ num_at v i = num_at v' i * g /\ den_at v i = den_at v' i * g).
Proof.
  intros (I1 & I2 & I3). unfold canonicalize_vec. rewrite I1. unfold dim at 1 2. rewrite !Nat.eqb_refl. cbn [andb assert_then].
  destruct (reduce_loop_ok (enumerator v) (denominator v) false) as (ns & ds & ch & E & L1 & L2 & F & C & V);
    [unfold dim in I1; lia|assumption|].
  unfold assert_then. rewrite E. cbn [bind].
  set (v1 := mkRV ns ds (computed v && negb ch) (iscale v) (ifactor v)).
  assert (D1 : dim v1 = dim v) by (unfold dim; exact L1).
  assert (HL1 : length (denominator v1) = dim v1).
  { change (denominator v1) with ds. rewrite L2, D1. exact I1. }
  destruct (computed v1) eqn:Ec.
  - exists v1. split; [reflexivity|]. cbn in Ec. apply andb_true_iff in Ec as [Ec1 Ec2]. apply negb_true_iff in Ec2.
    destruct (C Ec2) as (_ & -> & ->).
    split; [|split; [exact D1|split; [cbn; now rewrite Ec1, Ec2|exact V]]].
    split; [exact HL1|]. split; [exact F|]. intros _. apply I3. exact Ec1.
  - destruct (compute_ok v1) as (v' & E' & E1 & E2 & E3 & E4); [exact HL1|exact F|].
    exists v'. split; [exact E'|]. split; [exact E4|]. split; [unfold dim at 1; rewrite E1; exact L1|]. split; [exact E3|].
    intros i Hi. unfold num_at, den_at. rewrite E1, E2. cbn [enumerator denominator v1]. now apply V.
Qed.

Lemma nth_map0 (f : Z -> Z) l i a b : (i < length l)%nat -> nth i (map f l) a = f (nth i l b).
Proof. intros H. rewrite (nth_indep _ a (f b)) by (now rewrite map_length). apply map_nth. Qed.

Lemma scalar_multiplication_ok v n d : inv P v -> P d ->
  exists v', scalar_multiplication v n d = Ok v' /\ inv P v' /\ dim v' = dim v /\
    (forall i, (i < dim v)%nat -> Z.gcd (num_at v' i) (den_at v' i) = 1 /\
       exists g, 0 < g /\ num_at v i * n = num_at v' i * g /\ den_at v i * d = den_at v' i * g).
Proof.
  intros (I1 & I2 & I3) Hd. unfold scalar_multiplication.
  set (v1 := mkRV _ _ _ _ _).
  assert (D1 : dim v1 = dim v) by (unfold dim; cbn; apply map_length).
  assert (Iv1 : inv P v1).
  { split; [rewrite D1; cbn; rewrite map_length; exact I1|]. split; [|discriminate].
    cbn. apply Forall_map. eapply Forall_impl; [|exact I2]. intros x Hx. now apply GP. }
  destruct (canonicalize_vec_ok v1 Iv1) as (v' & E & I' & D' & _ & V). rewrite D1 in *.
  exists v'. unfold dim in E at 1. split; [exact E|]. split; [exact I'|]. split; [exact D'|].
  intros i Hi. destruct (V i Hi) as (G & g & Hg & Hn & Hdd). split; [exact G|]. exists g. split; [exact Hg|].
  unfold num_at, den_at in *. cbn [enumerator denominator v1] in *.
  rewrite (nth_map0 (fun x => x * n) _ _ 0 0) in Hn by exact Hi.
  rewrite (nth_map0 (fun x => x * d) _ _ 1 1) in Hdd by (rewrite I1; exact Hi). auto.
Qed.

Lemma scale_ok v : inv P v ->
  exists v' w s, scale_to_integer v (dim v) = Ok (v', w, s) /\ inv P v' /\
    enumerator v' = enumerator v /\ denominator v' = denominator v /\
    w = iscale v' /\ s = ifactor v' /\ computed v' = true.
Proof.
  intros (I1 & I2 & I3). unfold scale_to_integer. rewrite I1. unfold dim at 1 2. rewrite !Nat.eqb_refl. unfold assert_then; cbn [andb].
  destruct (computed v) eqn:Ec; cbn [bind].
  - exists v, (iscale v), (ifactor v). split; [reflexivity|]. split; [split; auto|]. repeat (split; auto).
  - destruct (compute_ok v I1 I2) as (v' & E & E1 & E2 & E3 & E4). rewrite E. cbn [bind].
    exists v', (iscale v'), (ifactor v'). split; [reflexivity|]. repeat (split; auto).
Qed.
End WithP.

(** normalizeRationalVector. *)
Lemma normalize_inner_ok d (Hd : 1 < d) : forall count v j,
  inv nonzero v -> (j + count = dim v)%nat ->
  exists v', normalize_inner v d j count = Ok v' /\ inv nonzero v' /\ dim v' = dim v /\
    (forall i, (i < j)%nat -> num_at v' i = num_at v i /\ den_at v' i = den_at v i) /\
    (forall i, (j <= i < dim v)%nat ->
       num_at v' i * den_at v i = d * num_at v i * den_at v' i /\
       den_at v' i = den_at v i / Z.gcd d (den_at v i)).
Proof.
  induction count as [|c IH]; intros v j I Hj; cbn [normalize_inner].
  - exists v. split; [reflexivity|]. split; [exact I|]. split; [reflexivity|]. split; [auto|]. intros i Hi. lia.
  - fold (den_at v j).
    assert (Nz : den_at v j <> 0) by (apply (Forall_den nonzero); [unfold nonzero; lia|apply I]).
    pose proof (gcd_nz_r d (den_at v j) Nz) as G.
    set (g := Z.gcd d (den_at v j)) in *.
    destruct (Z.gcd_divide_r d (den_at v j)) as [b Hb]. destruct (Z.gcd_divide_l d (den_at v j)) as [a Ha]. fold g in Ha, Hb.
    assert (Eb : den_at v j / g = b) by (rewrite Hb; apply Z.div_mul; lia).
    assert (Ea : d / g = a) by (rewrite Ha at 1; apply Z.div_mul; lia).
    assert (Hb0 : b <> 0) by nia.
    rewrite !zdiv_ok by lia. cbn [bind]. rewrite Eb, Ea.
    destruct (set_denominator_ok nonzero good_nonzero v j b I) as (v1 & E1 & I1 & D1 & N1 & M1); [lia|exact Hb0|].
    rewrite E1. cbn [bind].
    destruct (set_numerator_ok nonzero good_nonzero v1 j (nth j (enumerator v1) 0 * a) I1) as (v2 & E2 & I2 & D2 & N2 & M2); [lia|].
    rewrite E2. cbn [bind].
    destruct (IH v2 (S j) I2) as (v' & E' & I' & D' & A' & B'); [lia|].
    exists v'. split; [exact E'|]. split; [exact I'|]. split; [congruence|].
    assert (Q2 : forall i, num_at v2 i = if Nat.eqb i j then num_at v j * a else num_at v i).
    { intros i. unfold num_at. rewrite N2, nth_upd by (fold (dim v1); lia). rewrite N1. reflexivity. }
    assert (R2 : forall i, den_at v2 i = if Nat.eqb i j then b else den_at v i).
    { intros i. unfold den_at. rewrite M2, M1, nth_upd by (destruct I as (-> & _); lia). reflexivity. }
    split.
    + intros i Hi. destruct (A' i) as [A1 A2]; [lia|]. rewrite A1, A2, Q2, R2.
      destruct (Nat.eqb_spec i j); [lia|]. auto.
    + intros i Hi. destruct (Nat.eq_dec i j) as [->|N].
      * destruct (A' j) as [A1 A2]; [lia|]. rewrite A1, A2, Q2, R2, Nat.eqb_refl. split; [|now fold g].
        rewrite Hb at 1. rewrite Ha. ring.
      * destruct (B' i) as [B1 B2]; [lia|]. rewrite Q2, R2 in *. destruct (Nat.eqb_spec i j); [lia|]. auto.
Qed.

Lemma inv_positive_upgrade v : inv nonzero v -> (forall i, (i < dim v)%nat -> 0 < den_at v i) -> inv positive v.
Proof.
  intros (I1 & I2 & I3) H. split; [exact I1|]. split; [|exact I3]. apply Forall_forall. intros x Hx.
  apply (In_nth _ _ 1) in Hx as (i & Hi & <-). apply H. rewrite <- I1. exact Hi.
Qed.

Lemma normalize_outer_ok n : forall count v i,
  inv nonzero v -> dim v = n -> (i + count = n)%nat ->
  (forall k, (k < n)%nat -> 0 < den_at v k) ->
  (forall k, (k < i)%nat -> den_at v k = 1) ->
  exists v' q, normalize_outer v n i count = Ok v' /\ inv nonzero v' /\ dim v' = n /\ 0 < q /\
    (forall k, (k < n)%nat -> 0 < den_at v' k /\ num_at v' k * den_at v k = q * num_at v k * den_at v' k) /\
    (forall k, (k < n)%nat -> den_at v' k = 1).
Proof.
  induction count as [|c IH]; intros v i I Hn Hi Hp H1; cbn [normalize_outer].
  - exists v, 1. split; [reflexivity|]. split; [exact I|]. split; [exact Hn|]. split; [lia|].
    split; [|intros k Hk; apply H1; lia]. intros k Hk. split; [apply Hp, Hk|ring].
  - fold (den_at v i). destruct (Z.ltb_spec 1 (den_at v i)) as [L|L]; cbn [bind].
    + destruct (normalize_inner_ok (den_at v i) L n v 0 I) as (v1 & E1 & I1 & D1 & _ & B1); [lia|]. rewrite E1. cbn [bind].
      assert (Hp1 : forall k, (k < n)%nat -> 0 < den_at v1 k).
      { intros k Hk. destruct (B1 k) as [_ ->]; [lia|].
        specialize (Hp k Hk). pose proof (gcd_nz_r (den_at v i) (den_at v k)).
        destruct (Z.gcd_divide_r (den_at v i) (den_at v k)) as [m Hm].
        set (g := Z.gcd (den_at v i) (den_at v k)) in *. rewrite Hm, Z.div_mul by lia. nia. }
      assert (H11 : forall k, (k < S i)%nat -> den_at v1 k = 1).
      { intros k Hk. destruct (B1 k) as [_ ->]; [lia|].
        destruct (Nat.eq_dec k i) as [->|N].
        - rewrite Z.gcd_diag, Z.abs_eq by lia. apply Z.div_same. lia.
        - rewrite H1 by lia. rewrite Z.gcd_1_r. reflexivity. }
      destruct (IH v1 (S i) I1) as (v' & q & E' & I' & D' & Q' & V' & W'); [lia|lia|exact Hp1|exact H11|].
      exists v', (q * den_at v i). split; [exact E'|]. split; [exact I'|]. split; [exact D'|]. split; [nia|]. split; [|exact W'].
      intros k Hk. destruct (V' k Hk) as [V1 V2]. split; [exact V1|].
      destruct (B1 k) as [V3 _]; [lia|]. specialize (Hp1 k Hk).
      apply (Z.mul_reg_r _ _ (den_at v1 k)); [lia|].
      transitivity (num_at v' k * den_at v1 k * den_at v k); [ring|]. rewrite V2.
      transitivity (q * den_at v' k * (num_at v1 k * den_at v k)); [ring|]. rewrite V3. ring.
    + destruct (IH v (S i) I) as (v' & q & R); [lia|lia|exact Hp| |exists v', q; exact R].
      intros k Hk. destruct (Nat.eq_dec k i) as [->|N]; [|apply H1; lia]. specialize (Hp i). lia.
Qed.

(** For arbitrary non-zero denominators normalisation still runs and keeps the invariant. *)
Lemma normalize_outer_inv n : forall count v i,
  inv nonzero v -> dim v = n -> (i + count = n)%nat ->
  exists v', normalize_outer v n i count = Ok v' /\ inv nonzero v' /\ dim v' = n.
Proof.
  induction count as [|c IH]; intros v i I Hn Hi; cbn [normalize_outer]; [eauto|].
  fold (den_at v i). destruct (Z.ltb_spec 1 (den_at v i)) as [L|L]; cbn [bind].
  - destruct (normalize_inner_ok (den_at v i) L n v 0 I) as (v1 & E1 & I1 & D1 & _); [lia|]. rewrite E1. cbn [bind].
    apply IH; auto; lia.
  - apply IH; auto; lia.
Qed.

Lemma inv_weaken P v : good P -> inv P v -> inv nonzero v.
Proof. intros GP (A & B & C). split; [exact A|]. split; [eapply P_nz; eauto|exact C]. Qed.

(** Both denominator disciplines: non-zero and positive. *)
Definition discipline (P : Z -> Prop) : Prop := P = nonzero \/ P = positive.
Lemma discipline_good P : discipline P -> good P.
Proof. intros [->| ->]; [apply good_nonzero|apply good_positive]. Qed.

Lemma normalize_vec_inv P v : discipline P -> inv P v ->
  exists v', normalize_vec v = Ok v' /\ inv P v' /\ dim v' = dim v.
Proof.
  intros DP I. unfold normalize_vec. fold (dim v).
  destruct DP as [->| ->].
  - apply normalize_outer_inv; auto.
  - pose proof (inv_weaken _ _ good_positive I) as I0.
    destruct (normalize_outer_ok (dim v) (dim v) v 0 I0) as (v' & q & E & I' & D & Q & V & W); auto; try lia.
    { intros k Hk. apply (Forall_den positive); [unfold positive; lia|apply I]. }
    exists v'. split; [exact E|]. split; [|exact D]. apply inv_positive_upgrade; [exact I'|].
    intros i Hi. apply V. lia.
Qed.

Lemma rstep_ok P v o : discipline P -> inv P v -> op_ok P (dim v) o ->
  exists v', rstep v o = Ok v' /\ inv P v' /\ dim v' = dim v.
Proof.
  intros DP I Ho. pose proof (discipline_good P DP) as GP. destruct o; cbn [rstep op_ok] in *.
  - destruct Ho. destruct (set_entry_ok P GP v i n d lazy I) as (v' & A & B & C & _); eauto.
  - destruct (set_numerator_ok P GP v i n I) as (v' & A & B & C & _); eauto.
  - destruct Ho. destruct (set_denominator_ok P GP v i d I) as (v' & A & B & C & _); eauto.
  - destruct (scalar_multiplication_ok P GP v n d I) as (v' & A & B & C & _); eauto.
  - destruct (canonicalize_vec_ok P GP v I) as (v' & A & B & C & _); eauto.
  - now apply normalize_vec_inv.
  - destruct (scale_ok P GP v I) as (v' & w & s & E & I' & N & M & _). fold (dim v). rewrite E. cbn [bind].
    exists v'. split; [reflexivity|]. split; [exact I'|]. unfold dim. now rewrite N.
Qed.

Lemma rrun_ok P p : discipline P -> forall v, inv P v -> Forall (op_ok P (dim v)) p ->
  exists v', rrun v p = Ok v' /\ inv P v' /\ dim v' = dim v.
Proof.
  intros DP. induction p as [|o p IH]; intros v I H; cbn [rrun]; [eauto|].
  inversion H; subst. destruct (rstep_ok P v o DP I) as (v1 & E & I1 & D1); [assumption|].
  rewrite E. cbn [bind]. destruct (IH v1 I1) as (v' & E' & I' & D'); [now rewrite D1|].
  exists v'. split; [exact E'|]. split; [exact I'|congruence].
Qed.

Lemma reachable_inv P c v : discipline P -> reachable P c v -> inv P v /\ dim v = ctor_dim c.
Proof.
  intros DP (Hc & v0 & p & E & Hp & Hr). pose proof (discipline_good P DP) as GP.
  destruct (inv_new P GP c v0 Hc E) as [I D]. rewrite <- D in Hp.
  destruct (rrun_ok P p DP v0 I Hp) as (v' & E' & I' & D'). rewrite E' in Hr; injection Hr as <-.
  split; [exact I'|congruence].
Qed.

Lemma history_runs P c p : discipline P -> ctor_ok P c -> Forall (op_ok P (ctor_dim c)) p ->
  exists v0 v, rnew c = Ok v0 /\ rrun v0 p = Ok v.
Proof.
  intros DP Hc Hp. pose proof (discipline_good P DP) as GP.
  assert (exists v0, rnew c = Ok v0) as [v0 E].
  { destruct c as [n|ns d|ns ds]; cbn; eauto. destruct Hc as [HL _]. unfold rv_pair. rewrite HL, Nat.eqb_refl. eexists; reflexivity. }
  destruct (inv_new P GP c v0 Hc E) as [I D]. rewrite <- D in Hp.
  destruct (rrun_ok P p DP v0 I Hp) as (v & E' & _). eauto.
Qed.

Lemma inject_nz' z : z <> 0 -> ~ (inject_Z z == 0)%Q.
Proof. intros H E. apply H. unfold Qeq in E; simpl in E. lia. Qed.

Lemma coord_cross (a b c d e : Z) : b <> 0 -> d <> 0 -> a * d = e * c * b ->
  (inject_Z a / inject_Z b == inject_Z e * (inject_Z c / inject_Z d))%Q.
Proof.
  intros Hb Hd H.
  assert (K : (inject_Z a * inject_Z d == inject_Z e * inject_Z c * inject_Z b)%Q).
  { rewrite <- !inject_Z_mult. now rewrite H. }
  apply (Qmult_inj_r _ _ (inject_Z b * inject_Z d)).
  { intros E. apply Qmult_integral in E. destruct E as [E|E]; revert E; now apply inject_nz'. }
  transitivity (inject_Z a * inject_Z d)%Q; [field; now apply inject_nz'|].
  rewrite K. field; now apply inject_nz'.
Qed.

Lemma scale_exact P c v : discipline P -> reachable P c v ->
  exists v' w s, scale_to_integer v (dim v) = Ok (v', w, s) /\ s <> 0 /\ length w = dim v /\
    (forall i, (i < dim v)%nat -> inject_Z (nth i w 0%Z) == inject_Z s * coord v i)%Q /\
    (P = positive -> (0 < dim v)%nat -> 0 < s).
Proof.
  intros DP R. pose proof (discipline_good P DP) as GP. destruct (reachable_inv P c v DP R) as [I D].
  destruct (scale_ok P GP v I) as (v' & w & s & E & I' & N & M & -> & -> & C).
  destruct I' as (I1 & I2 & I3). destruct (I3 C) as [(C1 & C2 & C3 & C4 & C5) C6].
  assert (Dv : dim v' = dim v) by (unfold dim; now rewrite N).
  exists v', (iscale v'), (ifactor v'). split; [exact E|]. split; [exact C2|]. split; [congruence|]. split.
  - intros i Hi. specialize (C3 i ltac:(lia)).
    assert (Nz : den_at v' i <> 0) by (apply GP, Forall_den; [apply GP|exact I2]).
    unfold coord. replace (num_at v i) with (num_at v' i) by (unfold num_at; now rewrite N).
    replace (den_at v i) with (den_at v' i) by (unfold den_at; now rewrite M).
    rewrite <- (coord_cross (nth i (iscale v') 0) 1 (num_at v' i) (den_at v' i) (ifactor v')); try lia.
    field.
  - intros -> H0. apply C6; [exact I2|lia].
Qed.

Lemma scale_minimal P c v : discipline P -> reachable P c v -> (0 < dim v)%nat ->
  (forall i, (i < dim v)%nat -> Z.gcd (num_at v i) (den_at v i) = 1) ->
  forall v' w s, scale_to_integer v (dim v) = Ok (v', w, s) ->
  forall t : Z, (forall i, (i < dim v)%nat -> exists z : Z, (inject_Z z == inject_Z t * coord v i)%Q) -> (s | t).
Proof.
  intros DP R H0 Hr v' w s E t Ht. pose proof (discipline_good P DP) as GP. destruct (reachable_inv P c v DP R) as [I D].
  destruct (scale_ok P GP v I) as (v1 & w1 & s1 & E1 & I' & N & M & -> & -> & C).
  rewrite E in E1. injection E1 as -> -> ->.
  destruct I' as (I1 & I2 & I3). destruct (I3 C) as [(C1 & C2 & C3 & C4 & C5) C6].
  assert (Dv : dim v1 = dim v) by (unfold dim; now rewrite N).
  apply C5; [lia|]. intros i Hi. rewrite Dv in Hi. destruct (Ht i Hi) as [z Hz].
  assert (Nz : den_at v1 i <> 0) by (apply GP, Forall_den; [apply GP|exact I2]).
  unfold coord in Hz. replace (den_at v1 i) with (den_at v i) in * by (unfold den_at; now rewrite M).
  apply Z.gauss with (num_at v i).
  - exists z.
    assert (K : (inject_Z (z * den_at v i) == inject_Z (num_at v i * t))%Q).
    { rewrite !inject_Z_mult, Hz. field. now apply inject_nz'. }
    unfold Qeq in K; simpl in K. lia.
  - rewrite Z.gcd_comm. now apply Hr.
Qed.

(** Effects of the operations on the visible value. *)
Lemma effect_set_entry P c v i n d lazy v' : discipline P -> reachable P c v -> op_ok P (dim v) (RSetEntry i n d lazy) ->
  rstep v (RSetEntry i n d lazy) = Ok v' ->
  num_at v' i = n /\ den_at v' i = d /\ forall j, j <> i -> num_at v' j = num_at v j /\ den_at v' j = den_at v j.
Proof.
  intros DP R [Hi Hd] E. pose proof (discipline_good P DP) as GP. destruct (reachable_inv P c v DP R) as [I D].
  destruct (set_entry_ok P GP v i n d lazy I Hi Hd) as (v1 & E1 & I1 & D1 & N1 & M1).
  cbn in E. rewrite E1 in E; injection E as <-. unfold num_at, den_at. rewrite N1, M1.
  pose proof (proj1 I) as L. unfold dim in *.
  rewrite !nth_upd_eq by lia. split; [reflexivity|]. split; [reflexivity|].
  intros j Hj. rewrite !nth_upd_neq by congruence. auto.
Qed.

Lemma effect_canon P c v v' : discipline P -> reachable P c v -> rstep v RCanon = Ok v' ->
  forall i, (i < dim v)%nat -> Z.gcd (num_at v' i) (den_at v' i) = 1 /\ (coord v' i == coord v i)%Q.
Proof.
  intros DP R E i Hi. pose proof (discipline_good P DP) as GP. destruct (reachable_inv P c v DP R) as [I D].
  destruct (canonicalize_vec_ok P GP v I) as (v1 & E1 & I1 & D1 & C1 & V). cbn in E. fold (dim v) in E.
  rewrite E1 in E; injection E as <-. destruct (V i Hi) as (G & g & Hg & Hn & Hd). split; [exact G|].
  unfold coord. rewrite Hn, Hd, !inject_Z_mult. 
  assert (den_at v1 i <> 0) by (apply GP, Forall_den; [apply GP|apply I1]).
  field. split; apply inject_nz'; lia.
Qed.

Lemma effect_scalar P c v n d v' : discipline P -> reachable P c v -> P d -> rstep v (RScalarMul n d) = Ok v' ->
  forall i, (i < dim v)%nat -> Z.gcd (num_at v' i) (den_at v' i) = 1 /\
    (coord v' i == coord v i * (inject_Z n / inject_Z d))%Q.
Proof.
  intros DP R Hd E i Hi. pose proof (discipline_good P DP) as GP. destruct (reachable_inv P c v DP R) as [I D].
  destruct (scalar_multiplication_ok P GP v n d I Hd) as (v1 & E1 & I1 & D1 & V). cbn in E.
  rewrite E1 in E; injection E as <-. destruct (V i Hi) as (G & g & Hg & Hn & Hdd). split; [exact G|].
  assert (N1 : den_at v1 i <> 0) by (apply GP, Forall_den; [apply GP|apply I1]).
  assert (N2 : den_at v i <> 0) by (apply GP, Forall_den; [apply GP|apply I]).
  assert (N3 : d <> 0) by (now apply GP).
  assert (A : (inject_Z (num_at v i) * inject_Z n == inject_Z (num_at v1 i) * inject_Z g)%Q) by (rewrite <- !inject_Z_mult; now rewrite Hn).
  assert (B : (inject_Z (den_at v i) * inject_Z d == inject_Z (den_at v1 i) * inject_Z g)%Q) by (rewrite <- !inject_Z_mult; now rewrite Hdd).
  unfold coord.
  transitivity ((inject_Z (num_at v i) * inject_Z n) / (inject_Z (den_at v i) * inject_Z d))%Q.
  - rewrite A, B. field. split; apply inject_nz'; lia.
  - field. split; now apply inject_nz'.
Qed.

Lemma effect_normalize c v v' : reachable positive c v -> rstep v RNormalize = Ok v' ->
  exists q : Z, 0 < q /\ forall i, (i < dim v)%nat -> den_at v' i = 1 /\ (coord v' i == inject_Z q * coord v i)%Q.
Proof.
  intros R E. destruct (reachable_inv positive c v (or_intror eq_refl) R) as [I D].
  pose proof (inv_weaken _ _ good_positive I) as I0.
  assert (Hp : forall k, (k < dim v)%nat -> 0 < den_at v k).
  { intros k Hk. apply (Forall_den positive); [unfold positive; lia|apply I]. }
  destruct (normalize_outer_ok (dim v) (dim v) v 0 I0) as (v1 & q & E1 & I' & D1 & Q & V & W); auto; try lia.
  cbn in E. unfold normalize_vec in E. fold (dim v) in E. rewrite E1 in E; injection E as <-.
  exists q. split; [exact Q|]. intros i Hi. split; [now apply W|]. unfold coord.
  destruct (V i Hi) as [V1 V2]. specialize (Hp i Hi). apply coord_cross; lia.
Qed.

(** constructRay *)
Lemma ray_loop_length wf vf : forall w v, length w = length v -> length (ray_loop wf vf w v) = length w.
Proof. induction w as [|a w IH]; intros [|b v] H; simpl in *; try discriminate; auto. Qed.
Lemma ray_loop_nth wf vf : forall w v i, length w = length v -> (i < length w)%nat ->
  nth i (ray_loop wf vf w v) 0 = wf * nth i w 0 - vf * nth i v 0.
Proof.
  induction w as [|a w IH]; intros [|b v] i H Hi; simpl in *; try discriminate; try lia.
  destruct i as [|i]; [reflexivity|]. apply IH; lia.
Qed.

Lemma fold_left_gcd rest : forall x, fold_left Z.gcd rest (Z.abs x) = Z.gcd x (content rest).
Proof.
  induction rest as [|y rest IH]; intros x; cbn [fold_left content fold_right].
  - now rewrite Z.gcd_0_r.
  - rewrite Z.gcd_abs_l. rewrite <- (Z.abs_eq (Z.gcd x y)) by apply Z.gcd_nonneg. rewrite IH.
    symmetry. apply Z.gcd_assoc.
Qed.
Lemma abs_fold_left_gcd rest x : Z.abs (fold_left Z.gcd rest x) = content (x :: rest).
Proof.
  destruct rest as [|y rest].
  - simpl. now rewrite Z.gcd_0_r.
  - cbn [fold_left]. rewrite <- (Z.abs_eq (Z.gcd x y)) by apply Z.gcd_nonneg. rewrite fold_left_gcd.
    rewrite Z.abs_eq by apply Z.gcd_nonneg. cbn [content fold_right]. symmetry. apply Z.gcd_assoc.
Qed.
Lemma content_divides l : Forall (fun x => (content l | x)) l.
Proof.
  induction l as [|x l IH]; constructor; cbn [content fold_right].
  - apply Z.gcd_divide_l.
  - eapply Forall_impl; [|exact IH]. intros y Hy. eapply Z.divide_trans; [apply Z.gcd_divide_r|exact Hy].
Qed.
Lemma content_nonneg l : 0 <= content l.
Proof. destruct l; cbn; [lia|apply Z.gcd_nonneg]. Qed.
Lemma content_zero l : content l = 0 -> Forall (fun x => x = 0) l.
Proof.
  induction l as [|x l IH]; intros H; constructor; cbn [content fold_right] in H.
  - now apply Z.gcd_eq_0_l in H.
  - apply IH. now apply Z.gcd_eq_0_r in H.
Qed.
Lemma content_mul g l : 0 <= g -> content (map (fun x => x * g) l) = content l * g.
Proof.
  intros Hg. induction l as [|x l IH]; cbn [content map fold_right]; [lia|].
  fold (content (map (fun x => x * g) l)). rewrite IH. rewrite Z.gcd_mul_mono_r. now rewrite Z.abs_eq.
Qed.
Lemma div_all_ok g : g <> 0 -> forall l, div_all l g = Ok (map (fun x => x / g) l).
Proof. intros Hg. induction l as [|x l IH]; cbn; [reflexivity|]. rewrite zdiv_ok by exact Hg. cbn. now rewrite IH. Qed.

Lemma construct_ray_ok cv cw v w : reachable positive cv v -> reachable positive cw w ->
  dim v = dim w -> (exists i, (i < dim v)%nat /\ ~ (coord v i == coord w i)%Q) ->
  exists r, construct_ray v w (dim v) = Ok r /\ length r = dim v /\ content r = 1 /\
    exists q, (0 < q)%Q /\ forall i, (i < dim v)%nat -> (inject_Z (nth i r 0%Z) == q * (coord w i - coord v i))%Q.
Proof.
  intros Rv Rw HD (i0 & Hi0 & Hne).
  destruct (scale_exact positive cv v (or_intror eq_refl) Rv) as (v' & vi & vs & Ev & Nv & Lv & Cv & Pv).
  destruct (scale_exact positive cw w (or_intror eq_refl) Rw) as (w' & wi & ws & Ew & Nw & Lw & Cw & Pw).
  specialize (Pv eq_refl ltac:(lia)). specialize (Pw eq_refl ltac:(lia)).
  unfold construct_ray. rewrite Ev. cbn [bind]. rewrite HD, Ew. cbn [bind]. rewrite <- HD in *.
  destruct (lcm_code_ok vs ws Nv Nw) as (cs & Ec & F1 & [kv Hkv] & [kw Hkw] & F4 & F5). rewrite Ec. cbn [bind].
  rewrite !zdiv_ok by assumption. cbn [bind]. specialize (F5 Pv Pw).
  replace (cs / ws) with kw by (rewrite Hkw; symmetry; now apply Z.div_mul).
  replace (cs / vs) with kv by (rewrite Hkv; symmetry; now apply Z.div_mul).
  set (res := ray_loop kw kv wi vi).
  assert (HL : length wi = length vi) by congruence.
  assert (Lres : length res = dim v) by (unfold res; rewrite ray_loop_length by exact HL; congruence).
  assert (V : forall i, (i < dim v)%nat -> (inject_Z (nth i res 0%Z) == inject_Z cs * (coord w i - coord v i))%Q).
  { intros i Hi. unfold res. rewrite ray_loop_nth by (exact HL || lia).
    unfold Z.sub. rewrite inject_Z_plus, inject_Z_opp, !inject_Z_mult. rewrite (Cv i Hi), (Cw i Hi).
    assert (A : (inject_Z cs == inject_Z kw * inject_Z ws)%Q) by (rewrite <- inject_Z_mult; now rewrite <- Hkw).
    assert (B : (inject_Z cs == inject_Z kv * inject_Z vs)%Q) by (rewrite <- inject_Z_mult; now rewrite <- Hkv).
    transitivity (inject_Z cs * coord w i - inject_Z cs * coord v i)%Q; [|ring].
    rewrite A at 1. rewrite B. ring. }
  assert (Qcs : (0 < inject_Z cs)%Q) by (unfold Qlt; simpl; lia).
  destruct res as [|x rest] eqn:Er; [simpl in Lres; lia|]. rewrite <- Er in *.
  rewrite abs_fold_left_gcd, <- Er.
  assert (G : 0 < content res).
  { pose proof (content_nonneg res). assert (content res <> 0); [|lia]. intros E0. apply content_zero in E0.
    apply Hne. rewrite Forall_forall in E0. specialize (E0 (nth i0 res 0)).
    assert (K : nth i0 res 0 = 0) by (apply E0, nth_In; lia).
    specialize (V i0 Hi0). rewrite K in V. change (inject_Z 0) with 0%Q in V. symmetry in V. apply Qmult_integral in V.
    destruct V as [V|V]; [exfalso; apply (inject_nz' cs F1 V)|]. 
    apply (Qplus_inj_r _ _ (- coord v i0)%Q). rewrite Qplus_opp_r. symmetry. exact V. }
  destruct (Z.eqb_spec (content res) 1) as [E1|E1].
  - exists res. split; [reflexivity|]. split; [exact Lres|]. split; [exact E1|]. exists (inject_Z cs). split; [exact Qcs|exact V].
  - rewrite div_all_ok by lia. eexists; split; [reflexivity|]. split; [now rewrite map_length|].
    pose proof (content_divides res) as DV.
    set (g := content res) in *.
    assert (M : map (fun x => x * g) (map (fun x => x / g) res) = res).
    { rewrite map_map. rewrite <- (map_id res) at 2. apply map_ext_in. intros y Hy.
      rewrite Forall_forall in DV. destruct (DV y Hy) as [k ->]. rewrite Z.div_mul by lia. reflexivity. }
    split.
    + apply (Z.mul_reg_r _ _ g); [lia|]. rewrite <- content_mul by lia. rewrite M. unfold g. lia.
    + exists (inject_Z cs / inject_Z g)%Q. split.
      * apply Qlt_shift_div_l; [unfold Qlt; simpl; lia|]. rewrite Qmult_0_l. exact Qcs.
      * intros i Hi. rewrite (nth_map0 (fun x => x / g) res i 0 0) by lia.
        assert (K : nth i res 0 / g * g = nth i res 0).
        { rewrite Forall_forall in DV. destruct (DV (nth i res 0)) as [k Hk]; [apply nth_In; lia|].
          rewrite Hk, Z.div_mul by lia. reflexivity. }
        specialize (V i Hi). rewrite <- K, inject_Z_mult in V.
        apply (Qmult_inj_r _ _ (inject_Z g)); [apply inject_nz'; lia|]. rewrite V. field. apply inject_nz'; lia.
Qed.

Lemma construct_ray_equal cv cw v w : reachable positive cv v -> reachable positive cw w ->
  dim v = dim w -> (0 < dim v)%nat -> (forall i, (i < dim v)%nat -> (coord v i == coord w i)%Q) ->
  construct_ray v w (dim v) = Err DivByZero.
Proof.
  intros Rv Rw HD H0 Heq.
  destruct (scale_exact positive cv v (or_intror eq_refl) Rv) as (v' & vi & vs & Ev & Nv & Lv & Cv & Pv).
  destruct (scale_exact positive cw w (or_intror eq_refl) Rw) as (w' & wi & ws & Ew & Nw & Lw & Cw & Pw).
  unfold construct_ray. rewrite Ev. cbn [bind]. rewrite HD, Ew. cbn [bind]. rewrite <- HD in *.
  destruct (lcm_code_ok vs ws Nv Nw) as (cs & Ec & F1 & [kv Hkv] & [kw Hkw] & F4 & F5). rewrite Ec. cbn [bind].
  rewrite !zdiv_ok by assumption. cbn [bind].
  replace (cs / ws) with kw by (rewrite Hkw; symmetry; now apply Z.div_mul).
  replace (cs / vs) with kv by (rewrite Hkv; symmetry; now apply Z.div_mul).
  set (res := ray_loop kw kv wi vi).
  assert (HL : length wi = length vi) by congruence.
  assert (Lres : length res = dim v) by (unfold res; rewrite ray_loop_length by exact HL; congruence).
  assert (Z0 : Forall (fun x => x = 0) res).
  { apply Forall_forall. intros x Hx. apply (In_nth _ _ 0) in Hx as (i & Hi & <-). rewrite Lres in Hi.
    unfold res. rewrite ray_loop_nth by (exact HL || lia).
    enough (inject_Z (kw * nth i wi 0%Z - kv * nth i vi 0%Z) == 0)%Q as K by (unfold Qeq in K; simpl in K; lia).
    unfold Z.sub. rewrite inject_Z_plus, inject_Z_opp, !inject_Z_mult. rewrite (Cv i Hi), (Cw i Hi), (Heq i Hi).
    assert (A : (inject_Z cs == inject_Z kw * inject_Z ws)%Q) by (rewrite <- inject_Z_mult; now rewrite <- Hkw).
    assert (B : (inject_Z cs == inject_Z kv * inject_Z vs)%Q) by (rewrite <- inject_Z_mult; now rewrite <- Hkv).
    transitivity (inject_Z cs * coord w i - inject_Z cs * coord w i)%Q; [|ring].
    rewrite A at 1. rewrite B. ring. }
  destruct res as [|x rest] eqn:Er; [simpl in Lres; lia|].
  rewrite abs_fold_left_gcd.
  assert (C0 : content (x :: rest) = 0).
  { clear - Z0. induction Z0 as [|y l Hy H IH]; [reflexivity|]. cbn [content fold_right]. fold (content l). now rewrite IH, Hy. }
  rewrite C0. cbn. reflexivity.
Qed.
