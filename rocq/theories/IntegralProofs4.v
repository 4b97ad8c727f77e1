(** Laurent expansions as limits: from generic forms to all forms. *)
From Coq Require Import QArith Qabs Qfield Lqa Qpower.
From Verif Require Import Common IntegSpec IntegMath IntegProofs Series DecompProofs ExpSpec ExpProofs ExpProofs2 ExpProofs4 InterpProofs2 PerturbSpec PerturbProofs2 PerturbProofs4 LimitProofs.
Open Scope Q_scope.
Notation poly_at := ExpSpec.poly_at.

Lemma injk k : (1 <= k)%Z -> 0 < inject_Z k.
Proof. intros H. unfold Qlt. cbn. lia. Qed.
(** ** Divided differences *)
Fixpoint tails (l : list Q) (y : Q) : list Q := match l with [] => [] | b :: l' => poly_at l y :: tails l' y end.
Lemma poly_divided l : forall x y, poly_at l x == poly_at l y + (x - y) * poly_at (tails (tl l) y) x.
Proof.
  induction l as [|a l IH]; intros x y; cbn [tl poly_at tails]; [ring|]. destruct l as [|b l]; [cbn [poly_at tails]; ring|]. specialize (IH x y). cbn [tl] in IH. cbn [tails]. change (poly_at (poly_at (b :: l) y :: tails l y) x) with (poly_at (b :: l) y + x * poly_at (tails l y) x). rewrite IH. ring.
Qed.
Definition fat (cs : list (Z -> Q)) (k : Z) : list Q := map (fun f => f k) cs.
Fixpoint ftails (cs : list (Z -> Q)) (y : Q) : list (Z -> Q) := match cs with [] => [] | f :: l => (fun k => poly_at (fat cs k) y) :: ftails l y end.
Lemma ftails_at cs y k : fat (ftails cs y) k = tails (fat cs k) y.
Proof. induction cs as [|f cs IH]; [reflexivity|]. cbn [ftails]. unfold fat in *. cbn [map tails]. now rewrite IH. Qed.
Definition converges (F : Z -> Q) : Prop := exists c, tends F c.
Lemma tails_converge y cs : Forall converges (ftails cs y) -> Forall converges cs.
Proof.
  induction cs as [|f cs IH]; intros H; [constructor|]. cbn [ftails] in H. pose proof (Forall_inv H) as (c & Hc). pose proof (Forall_inv_tail H) as H'. specialize (IH H'). constructor; [|exact IH].
  assert (T : converges (fun k => poly_at (fat cs k) y)) by (destruct cs as [|g cs]; [exists 0; exact (tends_const 0)|exact (Forall_inv H')]). destruct T as (d & Hd). exists (c - y * d).
  apply (tends_ext (fun k => poly_at (fat (f :: cs) k) y - y * poly_at (fat cs k) y)); [exists 0%Z; intros k _; unfold fat; cbn [map ExpSpec.poly_at]; ring|]. apply tends_minus; [exact Hc|now apply tends_scale].
Qed.
Lemma interpolate d : forall cs K0, (length cs <= d)%nat -> (forall K, (K0 <= K)%Z -> converges (fun k => poly_at (fat cs k) (inject_Z K))) -> Forall converges cs.
Proof.
  induction d as [|d IH]; intros cs K0 L H; (destruct cs as [|f cs]; [constructor|]); cbn [length] in L; [lia|].
  assert (C : Forall converges cs).
  { apply (tails_converge (inject_Z K0)). apply (IH _ (K0 + 1)%Z).
    - assert (LT : forall l y, length (ftails l y) = length l) by (induction l as [|g l IHl]; intros y; cbn; [reflexivity|now rewrite IHl]). rewrite LT. lia.
    - intros K HK. destruct (H K ltac:(lia)) as (c & Hc). destruct (H K0 ltac:(lia)) as (c0 & Hc0). assert (NZ : ~ inject_Z K - inject_Z K0 == 0). { assert (X : inject_Z K0 < inject_Z K) by (rewrite <- Zlt_Qlt; lia). lra. }
      exists ((/ (inject_Z K - inject_Z K0)) * (c - c0)). apply (tends_ext (fun k => / (inject_Z K - inject_Z K0) * (poly_at (fat (f :: cs) k) (inject_Z K) - poly_at (fat (f :: cs) k) (inject_Z K0)))).
      + exists 0%Z. intros k _. rewrite ftails_at. rewrite (poly_divided (fat (f :: cs) k) (inject_Z K) (inject_Z K0)). change (tl (fat (f :: cs) k)) with (fat cs k). field. exact NZ.
      + apply tends_scale. now apply tends_minus. }
  constructor; [|exact C]. destruct (H K0 ltac:(lia)) as (c0 & Hc0).
  assert (T : converges (fun k => poly_at (fat cs k) (inject_Z K0))).
  { clear -C. induction C as [|g l (a & Ha) C (b & Hb)]; [exists 0; exact (tends_const 0)|]. exists (a + inject_Z K0 * b). unfold fat in *. cbn [map ExpSpec.poly_at]. apply tends_plus; [exact Ha|now apply tends_scale]. }
  destruct T as (d0 & Hd). exists (c0 - inject_Z K0 * d0). apply (tends_ext (fun k => poly_at (fat (f :: cs) k) (inject_Z K0) - inject_Z K0 * poly_at (fat cs k) (inject_Z K0))); [exists 0%Z; intros k _; unfold fat; cbn [map ExpSpec.poly_at]; ring|]. apply tends_minus; [exact Hc0|now apply tends_scale].
Qed.
(** ** Polynomials at infinity *)
Lemma poly_bounded l : forall c, tends (fun K => poly_at l (inject_Z K)) c -> nth 0 l 0 == c /\ Forall (fun a => a == 0) (tl l).
Proof.
  induction l as [|a l IH]; intros c H; cbn [nth tl].
  - split; [|constructor]. apply (tends_unique (fun K => poly_at [] (inject_Z K))); [exact (tends_const 0)|exact H].
  - assert (T : tends (fun K => poly_at l (inject_Z K)) 0).
    { apply (tends_eq _ (0 * (c - a))); [ring|]. apply (tends_ext (fun K => / inject_Z K * (poly_at (a :: l) (inject_Z K) - a))).
      - exists 1%Z. intros K HK. pose proof (injk K HK). cbn [ExpSpec.poly_at]. field. lra.
      - apply tends_mult; [apply tends_inverse|]. apply tends_minus; [exact H|apply tends_const]. }
    destruct (IH 0 T) as [H0 HT]. assert (AZ : Forall (fun a => a == 0) l) by (destruct l; [constructor|constructor; [exact H0|exact HT]]). split; [|exact AZ].
    apply (tends_unique (fun K => poly_at (a :: l) (inject_Z K))); [|exact H]. apply (tends_ext (fun _ => a)); [|apply tends_const]. exists 0%Z. intros K _. cbn [ExpSpec.poly_at].
    assert (E : poly_at l (inject_Z K) == 0) by (clear -AZ; induction AZ as [|b l Hb AZ IHl]; cbn [ExpSpec.poly_at]; [reflexivity|rewrite Hb, IHl; ring]). rewrite E. ring.
Qed.
Lemma poly_leading l d : length l = S d -> tends (fun K => poly_at l (inject_Z K) / inject_Z K ^ Z.of_nat d) (nth d l 0).
Proof.
  revert l. induction d as [|d IH]; intros [|a l] L; cbn [length] in L; try discriminate.
  - destruct l; [|discriminate]. cbn [nth]. apply (tends_ext (fun _ => a)); [|apply tends_const]. exists 0%Z. intros K _. cbn. field.
  - cbn [nth]. apply (tends_eq _ (a * 0 ^ Z.of_nat (S d) + nth d l 0)); [rewrite Qpower_0 by lia; ring|].
    apply (tends_ext (fun K => a * (/ inject_Z K) ^ Z.of_nat (S d) + poly_at l (inject_Z K) / inject_Z K ^ Z.of_nat d)).
    + exists 1%Z. intros K HK. pose proof (injk K HK) as P. cbn [ExpSpec.poly_at]. rewrite Qinv_power, Qpow_S. field. split; [apply Qpower_not_0; lra|lra].
    + apply tends_plus; [apply tends_scale, tends_pow, tends_inverse|apply IH; lia].
Qed.
(** ** Expansions in 1/K *)
Definition partial_sum (A : nat -> Q) (J : nat) (K : Z) : Q := qsum (fun j => A j * (/ inject_Z K) ^ Z.of_nat j) (seq 0 (S J)).
Definition expands (F : Z -> Q) (A : nat -> Q) : Prop := forall J, tends (fun K => inject_Z K ^ Z.of_nat J * (F K - partial_sum A J K)) 0.
Lemma partial_S A J K : partial_sum A (S J) K == partial_sum A J K + A (S J) * (/ inject_Z K) ^ Z.of_nat (S J).
Proof. unfold partial_sum. rewrite qsum_seq_S. reflexivity. Qed.
Lemma partial_times f A J K : (1 <= K)%Z -> (inject_Z (fst f) + inject_Z (snd f) * / inject_Z K) * partial_sum A J K == partial_sum (times_factor f A) J K + inject_Z (snd f) * A J * (/ inject_Z K) ^ Z.of_nat (S J).
Proof.
  intros HK. pose proof (injk K HK) as P. induction J as [|J IH].
  - unfold partial_sum. cbn [seq qsum times_factor]. rewrite Qpow_S. cbn. ring.
  - rewrite !partial_S. rewrite Qmult_plus_distr_r, IH. cbn [times_factor]. rewrite (Qpow_S _ (S J)). ring.
Qed.
Lemma vanish_power J : tends (fun K => inject_Z K ^ Z.of_nat J * (/ inject_Z K) ^ Z.of_nat (S J)) 0.
Proof.
  apply (tends_ext (fun K => / inject_Z K)); [|apply tends_inverse]. exists 1%Z. intros K HK. pose proof (injk K HK). rewrite Qpow_S, Qinv_power. field. split; [apply Qpower_not_0; lra|lra].
Qed.
Lemma factor_limit f : tends (fun K => inject_Z (fst f) + inject_Z (snd f) * / inject_Z K) (inject_Z (fst f)).
Proof. apply (tends_eq _ (inject_Z (fst f) + inject_Z (snd f) * 0)); [ring|]. apply tends_plus; [apply tends_const|apply tends_scale, tends_inverse]. Qed.
Lemma expands_times f F A : expands F A -> expands (fun K => (inject_Z (fst f) + inject_Z (snd f) * / inject_Z K) * F K) (times_factor f A).
Proof.
  intros H J. apply (tends_eq _ (inject_Z (fst f) * 0 + (inject_Z (snd f) * A J) * 0)); [ring|].
  apply (tends_ext (fun K => (inject_Z (fst f) + inject_Z (snd f) * / inject_Z K) * (inject_Z K ^ Z.of_nat J * (F K - partial_sum A J K)) + (inject_Z (snd f) * A J) * (inject_Z K ^ Z.of_nat J * (/ inject_Z K) ^ Z.of_nat (S J)))).
  - exists 1%Z. intros K HK. setoid_replace ((inject_Z (fst f) + inject_Z (snd f) * / inject_Z K) * (inject_Z K ^ Z.of_nat J * (F K - partial_sum A J K))) with (inject_Z K ^ Z.of_nat J * ((inject_Z (fst f) + inject_Z (snd f) * / inject_Z K) * F K - (inject_Z (fst f) + inject_Z (snd f) * / inject_Z K) * partial_sum A J K)) by ring. rewrite (partial_times f A J K HK). ring.
  - apply tends_plus; [apply tends_mult; [apply factor_limit|apply H]|apply tends_scale, vanish_power].
Qed.
Lemma expands_ext F G A B : (exists K0, forall K, (K0 <= K)%Z -> F K == G K) -> (forall j, A j == B j) -> expands F A -> expands G B.
Proof.
  intros (K0 & E) EA H J. apply (tends_ext (fun K => inject_Z K ^ Z.of_nat J * (F K - partial_sum A J K))); [|apply H]. exists K0. intros K HK. rewrite (E K HK). unfold partial_sum. rewrite (qsum_ext (fun j => A j * _) (fun j => B j * (/ inject_Z K) ^ Z.of_nat j)) by (intros j _; rewrite EA; reflexivity). reflexivity.
Qed.
Lemma expands_over f F A : fst f <> 0%Z -> expands F A -> expands (fun K => F K / (inject_Z (fst f) + inject_Z (snd f) * / inject_Z K)) (over_factor f A).
Proof.
  intros N H J. set (B := over_factor f A). assert (NZ : ~ inject_Z (fst f) == 0) by (apply injz_nz; exact N).
  assert (NE : exists K0, (1 <= K0)%Z /\ forall K, (K0 <= K)%Z -> ~ inject_Z (fst f) + inject_Z (snd f) * / inject_Z K == 0).
  { exists (Z.abs (snd f) + 1)%Z. split; [lia|]. intros K HK E. pose proof (injk K ltac:(lia)) as P. assert (X : inject_Z (fst f * K + snd f) == 0) by (rewrite inject_Z_plus, inject_Z_mult; setoid_replace (inject_Z (fst f) * inject_Z K + inject_Z (snd f)) with (inject_Z K * (inject_Z (fst f) + inject_Z (snd f) * / inject_Z K)) by (field; lra); rewrite E; ring).
    apply (proj1 (inject_Z_injective _ 0)) in X. assert (fst f * K = - snd f)%Z by lia. assert (Z.abs (fst f) * K = Z.abs (snd f))%Z by (rewrite <- (Z.abs_eq K), <- Z.abs_mul by lia; lia). nia. }
  apply (tends_eq _ ((0 - (inject_Z (snd f) * B J) * 0) / inject_Z (fst f))); [field; exact NZ|].
  apply (tends_ext (fun K => (inject_Z K ^ Z.of_nat J * (F K - partial_sum A J K) - (inject_Z (snd f) * B J) * (inject_Z K ^ Z.of_nat J * (/ inject_Z K) ^ Z.of_nat (S J))) / (inject_Z (fst f) + inject_Z (snd f) * / inject_Z K))).
  - destruct NE as (K0 & K1 & NE). exists K0. intros K HK. specialize (NE K HK).
    assert (EA : partial_sum A J K == partial_sum (times_factor f B) J K). { unfold partial_sum. apply qsum_ext. intros j _. assert (X : times_factor f B j == A j) by (apply (times_div2 f A N)). rewrite X. reflexivity. }
    pose proof (partial_times f B J K ltac:(lia)) as PT. rewrite EA. setoid_replace (partial_sum (times_factor f B) J K) with ((inject_Z (fst f) + inject_Z (snd f) * / inject_Z K) * partial_sum B J K - inject_Z (snd f) * B J * (/ inject_Z K) ^ Z.of_nat (S J)) by (rewrite PT; ring).
    set (D := inject_Z (fst f) + inject_Z (snd f) * / inject_Z K) in *. field. exact NE.
  - apply tends_div; [exact NZ| |apply factor_limit]. apply tends_minus; [apply H|apply tends_scale, vanish_power].
Qed.
Lemma binomial_step p q N j : times_factor (p, q) (binomial_series p q N) j == binomial_series p q (S N) j.
Proof.
  unfold binomial_series. destruct j as [|j]; cbn [times_factor fst snd].
  - rewrite !binom_0, !Nat.sub_0_r, <- inject_Z_mult. rewrite Nat2Z.inj_succ, Z.pow_succ_r by lia. change (q ^ Z.of_nat 0)%Z with 1%Z. replace (1 * (p * p ^ Z.of_nat N) * 1)%Z with (p * (1 * p ^ Z.of_nat N * 1))%Z by ring. reflexivity.
  - rewrite <- !inject_Z_mult, <- inject_Z_plus. cbn [binom Nat.sub]. destruct (Nat.le_gt_cases (S j) N) as [L|L].
    + assert (E : (p ^ Z.of_nat (N - j) = p * p ^ Z.of_nat (N - S j))%Z) by (replace (N - j)%nat with (S (N - S j)) by lia; rewrite Nat2Z.inj_succ, Z.pow_succ_r by lia; reflexivity). rewrite E. rewrite (Nat2Z.inj_succ j), Z.pow_succ_r by lia. match goal with |- inject_Z ?a == inject_Z ?b => replace b with a by ring end. reflexivity.
    + rewrite (binom_out N (S j)) by lia. rewrite (Nat2Z.inj_succ j), Z.pow_succ_r by lia. match goal with |- inject_Z ?a == inject_Z ?b => replace b with a by ring end. reflexivity.
Qed.
Lemma expands_binomial p q N : expands (fun K => (inject_Z p + inject_Z q * / inject_Z K) ^ Z.of_nat N) (binomial_series p q N).
Proof.
  induction N as [|N IH].
  - intros J. apply (tends_ext (fun _ => 0)); [|apply tends_const]. exists 0%Z. intros K _. unfold partial_sum. rewrite qsum_seq_head. rewrite qsum_zero by (intros j _; unfold binomial_series; cbn [binom]; rewrite Z.mul_0_l; change (inject_Z (0 * _)) with (inject_Z 0); change (inject_Z 0) with 0; ring). unfold binomial_series. cbn. ring.
  - apply (expands_ext (fun K => (inject_Z (fst (p, q)) + inject_Z (snd (p, q)) * / inject_Z K) * (inject_Z p + inject_Z q * / inject_Z K) ^ Z.of_nat N) _ (times_factor (p, q) (binomial_series p q N))).
    + exists 0%Z. intros K _. cbn [fst snd]. symmetry. apply Qpow_S.
    + apply binomial_step.
    + now apply expands_times.
Qed.
Definition rat_at (p q : Z) (N : nat) (fs : list (Z * Z)) (K : Z) : Q := (inject_Z p + inject_Z q * / inject_Z K) ^ Z.of_nat N / product_at (/ inject_Z K) fs.
Lemma expands_regular fs p q N : Forall (fun f => fst f <> 0%Z) fs -> expands (fun K => (inject_Z p + inject_Z q * / inject_Z K) ^ Z.of_nat N / product_at (/ inject_Z K) fs) (over_factors fs (binomial_series p q N)).
Proof.
  induction 1 as [|f fs Hf H IH].
  - cbn [product_at fold_right over_factors]. apply (expands_ext (fun K => (inject_Z p + inject_Z q * / inject_Z K) ^ Z.of_nat N) _ (binomial_series p q N)); [exists 0%Z; intros; field|reflexivity|apply expands_binomial].
  - cbn [over_factors fold_right]. fold (over_factors fs (binomial_series p q N)). eapply expands_ext; [| |apply (expands_over f _ _ Hf IH)]; [|reflexivity]. exists 0%Z. intros K _. cbn [product_at fold_right]. fold (product_at (/ inject_Z K) fs). unfold factor_at, Qdiv. rewrite Qinv_mult_distr. ring.
Qed.
Lemma product_split w fs : product_at w fs == product_at w (regular fs) * (inject_Z (product (vanishing fs)) * w ^ Z.of_nat (length (vanishing fs))).
Proof.
  induction fs as [|f fs IH]; [cbn; ring|]. unfold regular, vanishing. cbn [filter]. cbn [product_at fold_right]. fold (product_at w fs). rewrite IH. fold (regular fs). destruct (Z.eqb_spec (fst f) 0) as [E|E]; cbn [negb].
  - cbn [map]. fold (vanishing fs). cbn [product length fold_right]. fold (product (vanishing fs)). rewrite inject_Z_mult, Qpow_S. unfold factor_at. rewrite E. change (inject_Z 0) with 0. ring.
  - cbn [product_at fold_right]. fold (product_at w (regular fs)) (vanishing fs). ring.
Qed.
(** The polynomial part and the constant term of (p + q/K)^N / prod (c + e/K). *)
Lemma cone_expansion p q N fs : (forall f, In f fs -> fst f <> 0%Z \/ snd f <> 0%Z) ->
  exists l, nth 0 l 0 == constant_coefficient p q N fs /\ tends (fun K => rat_at p q N fs K - poly_at l (inject_Z K)) 0.
Proof.
  intros HF. set (v := length (vanishing fs)). set (A := over_factors (regular fs) (binomial_series p q N)). set (P := inject_Z (product (vanishing fs))).
  assert (NP : ~ P == 0).
  { unfold P. apply injz_nz. clear -HF. unfold vanishing. induction fs as [|f fs IH]; cbn [filter map]; [discriminate|]. specialize (IH (fun g Hg => HF g (or_intror Hg))). destruct (Z.eqb_spec (fst f) 0) as [E|E]; [|exact IH]. cbn [map product fold_right]. fold (product (map snd (filter (fun f => (fst f =? 0)%Z) fs))). destruct (HF f (or_introl eq_refl)); [contradiction|nia]. }
  exists (map (fun j => A (v - j)%nat / P) (seq 0 (S v))). split.
  - cbn [seq map nth]. rewrite Nat.sub_0_r. reflexivity.
  - pose proof (expands_regular (regular fs) p q N (regular_nz fs) v) as EX. fold A in EX.
    apply (tends_eq _ (/ P * 0)); [ring|]. eapply tends_ext; [|apply (tends_scale (/ P)), EX]. exists 1%Z. intros K HK. pose proof (injk K HK) as PK. assert (NK : ~ inject_Z K ^ Z.of_nat v == 0) by (apply Qpower_not_0; lra).
    assert (EP : poly_at (map (fun j => A (v - j)%nat / P) (seq 0 (S v))) (inject_Z K) == / P * (inject_Z K ^ Z.of_nat v * partial_sum A v K)).
    { assert (PS : forall (h : nat -> Q) d x, poly_at (map h (seq 0 d)) x == qsum (fun j => h j * x ^ Z.of_nat j) (seq 0 d)).
      { clear. intros h d. revert h. induction d as [|d IH]; intros h x; [reflexivity|]. rewrite qsum_seq_head. cbn [seq map ExpSpec.poly_at]. rewrite <- seq_shift, map_map, IH, <- qsum_scale. apply Qplus_comp; [cbn; ring|]. apply qsum_ext. intros j _. rewrite Qpow_S. ring. }
      rewrite PS. unfold partial_sum. rewrite <- !qsum_scale.
      assert (RV : forall (h : nat -> Q) d, qsum h (seq 0 (S d)) == qsum (fun j => h (d - j)%nat) (seq 0 (S d))).
      { clear. intros h d. induction d as [|d IH]; [cbn; ring|]. rewrite qsum_seq_S, IH. rewrite (qsum_seq_head (fun j => h (S d - j)%nat)). cbn [Nat.sub]. ring. }
      rewrite RV. apply qsum_ext. intros j Hj. apply in_seq in Hj. replace (v - (v - j))%nat with j by lia. rewrite Qinv_power. assert (E : inject_Z K ^ Z.of_nat v == inject_Z K ^ Z.of_nat (v - j) * inject_Z K ^ Z.of_nat j) by (rewrite <- Qpow_add; replace (v - j + j)%nat with v by lia; reflexivity). rewrite E. field. split; [|exact NP]. apply Qpower_not_0. lra. }
    rewrite EP. unfold rat_at. rewrite (product_split _ fs). fold v P. rewrite Qinv_power. unfold Qdiv. rewrite !Qinv_mult_distr, Qinv_involutive. ring.
Qed.
