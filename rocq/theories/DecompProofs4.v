From Coq Require Import QArith Qfield Qpower Permutation Morphisms.
From Verif Require Import Common Rational RationalSpec RationalProofs Trie TrieSpec TrieProofs TrieProofs2 Integ IntegSpec IntegMath IntegProofs IntegProofs3 IntegProofs4 DecompProofs DecompProofs2 DecompProofs3.
Open Scope Z_scope.

(** ** A polynomial with a non-zero coefficient is not the zero function *)
Definition lam (M : list nat) (f : list Q -> Q) : Q := qsum (fun p => (inject_Z (wts M p) * f (map inject_Z (zs p)))%Q) (enum M).
Fixpoint lamf (M K : list nat) : Q :=
  match M, K with m :: Ms, k :: Ks => (diffn m 1 (fun y => y ^ Z.of_nat k) 0 * lamf Ms Ks)%Q | _, _ => 1%Q end.
Lemma pow_respects k : respects (fun y => (y ^ k)%Q).
Proof. intros y z E. now rewrite E. Qed.
Lemma lam_mono : forall M K, length K = length M -> (lam M (qmono (zs K)) == lamf M K)%Q.
Proof.
  unfold lam. induction M as [|m Ms IH]; intros [|k Ks] L; cbn [length] in L; try discriminate; cbn [enum lamf].
  - cbn [qsum wts zs map qmono]. change (inject_Z 1) with 1%Q. ring.
  - rewrite qsum_flat. rewrite <- IH by lia. rewrite diffn_closed by apply pow_respects. rewrite <- qsum_scale. apply qsum_ext. intros r _. rewrite qsum_map.
    rewrite Qmult_comm, <- qsum_scale. apply qsum_ext. intros c _. cbn [wts zs map qmono]. fold (zs Ks) (zs r). rewrite inject_Z_mult.
    assert (E : (0 + inject_Z (Z.of_nat c) * 1 == inject_Z (Z.of_nat c))%Q) by ring. rewrite E. ring.
Qed.
Lemma lamf_self M : (~ lamf M M == 0)%Q.
Proof.
  induction M as [|m M IH]; cbn [lamf]; [discriminate|]. intros H. apply Qmult_integral in H as [H|H]; [|auto].
  pose proof (lead_pow m) as L. rewrite <- (Nat.add_0_r m) in L at 1. apply (lead_diffn 1%Q m 0) in L. cbn [lead] in L. rewrite (L 0%Q) in H.
  rewrite Qpower_1, !Qmult_1_r in H. revert H. apply injz_nz. pose proof (rising_fact m 0) as R. cbn [zfact Nat.add] in R. pose proof (zfact_pos m). lia.
Qed.
Lemma lamf_other : forall M K, length K = length M -> Forall2 (fun m k => (m <= k)%nat) M K \/ (lamf M K == 0)%Q.
Proof.
  induction M as [|m M IH]; intros [|k K] L; cbn [length] in L; try discriminate; [left; constructor|]. cbn [lamf].
  destruct (IH K ltac:(lia)) as [H|H]; [|right; rewrite H; ring].
  destruct (le_lt_dec m k) as [Hk|Hk]; [left; constructor; auto|]. right.
  pose proof (lead_up (m - S k) k 1%Q _ (lead_pow k)) as P. replace (S (m - S k + k)) with (m + 0)%nat in P by lia.
  apply (lead_diffn 1%Q m 0) in P. cbn [lead] in P. rewrite (P 0%Q). ring.
Qed.
Lemma le_total : forall M K, Forall2 (fun m k => (m <= k)%nat) M K -> (total M <= total K)%nat /\ ((total K <= total M)%nat -> K = M).
Proof.
  induction 1 as [|m k M K H F [I1 I2]]; cbn [total fold_right]; [split; auto|]. fold (total M) (total K). split; [lia|].
  intros T. f_equal; [lia|]. apply I2. lia.
Qed.
Lemma lam_sum M {A} (g : A -> list Q -> Q) l : (lam M (fun x => qsum (fun a => g a x) l) == qsum (fun a => lam M (g a)) l)%Q.
Proof.
  unfold lam. induction l as [|a l IH]; cbn [qsum].
  - rewrite (qsum_ext _ (fun _ => 0 * 0)%Q) by (intros; ring). rewrite qsum_scale. ring.
  - rewrite <- IH, <- qsum_plus. apply qsum_ext. intros p _. ring.
Qed.
Lemma lam_scale M c f : (lam M (fun x => c * f x) == c * lam M f)%Q.
Proof. unfold lam. rewrite <- qsum_scale. apply qsum_ext. intros; ring. Qed.
Lemma lam_zero M n f : (forall x, length x = n -> f x == 0)%Q -> length M = n -> (lam M f == 0)%Q.
Proof.
  intros H L. unfold lam. rewrite (qsum_ext _ (fun _ => 0 * 0)%Q); [rewrite qsum_scale; ring|]. intros p Hp.
  rewrite H; [ring|]. unfold zs. rewrite !map_length. apply enum_bounds in Hp. apply F2_length in Hp. lia.
Qed.
Lemma max_total : forall ts : list (list nat), ts <> [] -> exists M, In M ts /\ Forall (fun K => (total K <= total M)%nat) ts.
Proof.
  induction ts as [|K ts IH]; [congruence|]. intros _. destruct ts as [|K' ts]; [exists K; split; [now left|constructor; auto]|].
  destruct IH as (M & HM & F); [discriminate|]. destruct (le_lt_dec (total K) (total M)).
  - exists M. split; [now right|constructor; auto].
  - exists K. split; [now left|constructor; auto]. eapply Forall_impl; [|exact F]. cbv beta. lia.
Qed.
Lemma qsum_single {A} (f : A -> Q) l a : NoDup l -> In a l -> (forall b, In b l -> b <> a -> f b == 0)%Q -> (qsum f l == f a)%Q.
Proof.
  induction 1 as [|b l Nb ND IH]; cbn [qsum In]; [tauto|]. intros [->|Ha] H.
  - rewrite (qsum_ext f (fun _ => 0 * 0)%Q) by (intros c Hc; rewrite (H c); [ring|now right|intros ->; contradiction]). rewrite qsum_scale. ring.
  - rewrite (H b) by (auto; intros ->; contradiction). rewrite IH; auto. ring.
Qed.
Definition good_terms (n : nat) (ts : list (bterm rat)) : Prop :=
  Forall (fun t => lowest_terms (t_coef t) /\ ~ (value (t_coef t) == 0)%Q /\ nat_exps (t_exps t) /\ length (t_exps t) = n) ts.
Lemma not_zero_function n ts : good_terms n ts -> NoDup (map t_exps ts) -> ts <> [] ->
  ~ (forall x, length x = n -> qsum (term_value x) ts == 0)%Q.
Proof.
  intros G ND NE H.
  assert (EX : Forall (fun t => zs (map Z.to_nat (t_exps t)) = t_exps t) ts).
  { eapply Forall_impl; [|exact G]. cbv beta. intros t (_ & _ & A & _). unfold zs. rewrite map_map. induction A as [|a e Ha He IH]; cbn [map]; [reflexivity|]. rewrite IH. now rewrite Z2Nat.id. }
  destruct (max_total (map (fun t => map Z.to_nat (t_exps t)) ts)) as (M & HM & MX); [destruct ts; [congruence|discriminate]|].
  apply in_map_iff in HM as (t & EM & Ht). unfold good_terms in G. rewrite Forall_forall in G, EX, MX.
  assert (LM : length M = n). { destruct (G t Ht) as (_ & _ & _ & A). rewrite <- EM, map_length. exact A. }
  pose proof (lam_zero M n _ H LM) as Z0. rewrite (lam_sum M (fun t x => term_value x t)) in Z0.
  assert (V : forall u, In u ts -> (lam M (fun x => term_value x u) == value (t_coef u) * lamf M (map Z.to_nat (t_exps u)))%Q).
  { intros u Hu. unfold term_value. rewrite lam_scale. rewrite <- (EX u Hu) at 1. rewrite lam_mono; [reflexivity|]. rewrite map_length. destruct (G u Hu) as (_ & _ & _ & A). lia. }
  rewrite (qsum_single _ ts t) in Z0.
  - rewrite (V t Ht), EM in Z0. apply Qmult_integral in Z0 as [Z0|Z0]; [|now apply (lamf_self M)]. destruct (G t Ht) as (_ & A & _). contradiction.
  - eapply NoDup_map_inv; eauto.
  - exact Ht.
  - intros u Hu Ne. rewrite (V u Hu). destruct (lamf_other M (map Z.to_nat (t_exps u))) as [O|O].
    + rewrite map_length. destruct (G u Hu) as (_ & _ & _ & A). lia.
    + exfalso. apply le_total in O as [_ O]. assert (E : map Z.to_nat (t_exps u) = M) by (apply O, MX; apply in_map_iff; exists u; auto).
      apply Ne. assert (EE : t_exps u = t_exps t) by (rewrite <- (EX u Hu), <- (EX t Ht); congruence).
      clear - ND Hu Ht EE. induction ts as [|a ts IH]; [destruct Hu|]. cbn [map] in ND. apply NoDup_cons_iff in ND as [N1 N2].
      destruct Hu as [->|Hu], Ht as [->|Ht]; auto; exfalso; apply N1.
      * rewrite EE. now apply in_map.
      * rewrite <- EE. now apply in_map.
    + rewrite O. ring.
Qed.

(** ** The delivered linear forms *)
Lemma coefficient_in l d x : ~ (coefficient l d x == 0)%Q -> exists p, In p l /\ snd (fst p) = d /\ snd p = x.
Proof.
  induction l as [|p l IH]; cbn [coefficient]; [intros H; exfalso; apply H; reflexivity|]. intros H.
  destruct ((snd (fst p) =? d) && same_exps (snd p) x) eqn:K.
  - apply andb_true_iff in K as [K1 K2]. apply Z.eqb_eq in K1. apply same_exps_spec in K2. exists p. split; [now left|auto].
  - destruct IH as (q & Hq & E); [intros E; apply H; rewrite E; ring|]. exists q. split; [now right|auto].
Qed.
Definition out_value (x : list Q) (t : bterm rat) : Q :=
  (value (t_coef t) * (qdot (t_exps t) x ^ t_deg t / inject_Z (zfact (Z.to_nat (t_deg t)))))%Q.
Theorem decompose_exact n ts : n <> O -> good_terms n ts -> NoDup (map t_exps ts) -> ts <> [] ->
  exists m out, decompose ts (new_sum n) = Ok m /\ sum_terms rat_zero m = Ok out /\ out <> [] /\
    NoDup (map (fun t => (t_deg t, t_exps t)) out) /\
    Forall (fun t => lowest_terms (t_coef t) /\ ~ (value (t_coef t) == 0)%Q /\ length (t_exps t) = n /\ exists u, In u ts /\ t_deg t = zdeg (t_exps u)) out /\
    (forall x, length x = n -> (qsum (out_value x) out == qsum (term_value x) ts)%Q).
Proof.
  intros Hn G ND NE. destruct (decompose_items n ts G) as (F & F1 & F2 & F3 & F4 & F5). specialize (F3 NE).
  destruct (trie_exact n F Hn) as (m & out & E1 & E2 & E3 & E4 & E5 & _).
  - eapply Forall_impl; [|exact F2]. cbv beta. tauto.
  - destruct F as [|p F]; [congruence|]. exists p. split; [now left|]. exact (proj1 (Forall_inv F4)).
  - exists m, out. assert (V : forall x, length x = n -> (qsum (out_value x) out == qsum (term_value x) ts)%Q).
    { intros x L. rewrite <- (F5 x L).
      pose (h := fun d e => (qdot e x ^ d / inject_Z (zfact (Z.to_nat d)))%Q).
      transitivity (wsum h (map triple out)).
      - unfold wsum. rewrite qsum_map. reflexivity.
      - rewrite (wsum_eq h _ (map triple out) F (le_n _) E5). reflexivity. }
    split; [unfold decompose; destruct ts; [congruence|]; rewrite F1; exact E1|]. split; [exact E2|]. split; [|split; [exact E3|split; [|exact V]]].
    + intros ->. apply (not_zero_function n ts G ND NE). intros x L. rewrite <- (V x L). reflexivity.
    + apply Forall_forall. intros t Ht. rewrite Forall_forall in E4. destruct (E4 t Ht) as [A1 A2]. split; auto. split; auto.
      assert (C : ~ (coefficient F (t_deg t) (t_exps t) == 0)%Q).
      { rewrite <- E5. rewrite (coefficient_nodup out (t_deg t) (t_exps t) (t_coef t)); auto. now destruct t. }
      destruct (coefficient_in F _ _ C) as (p & Hp & K1 & K2). unfold good_items in F2. rewrite Forall_forall in F2, F4.
      destruct (F2 p Hp) as (_ & L & _). destruct (F4 p Hp) as (_ & u & Hu & Du). rewrite <- K2, <- K1. split; auto. exists u. auto.
Qed.

(** ** Integration of a polynomial *)
Record functional (n : nat) (J : (list Q -> Q) -> Q) : Prop := {
  J_ext : forall f g, (forall x, length x = n -> f x == g x)%Q -> (J f == J g)%Q;
  J_add : forall f g, (J (fun x => f x + g x) == J f + J g)%Q;
  J_scale : forall c f, (J (fun x => c * f x) == c * J f)%Q }.
Lemma J_sum n J {A} (g : A -> list Q -> Q) l : functional n J -> (J (fun x => qsum (fun a => g a x) l) == qsum (fun a => J (g a)) l)%Q.
Proof.
  intros H. induction l as [|a l IH]; cbn [qsum].
  - rewrite (J_ext n J H (fun _ => 0%Q) (fun x => (0 * 0)%Q)) by (intros; ring). rewrite (J_scale n J H 0 (fun _ => 0%Q)). ring.
  - rewrite (J_add n J H (g a) (fun x => qsum (fun a => g a x) l)), IH. reflexivity.
Qed.
Lemma integrate_terms s J ts : let n := s_dim s in n <> O -> oksimplex s -> functional n J ->
  (forall l m, length l = n -> Z.of_nat (n + m) < 2 ^ 20 - 1 -> (exists t, In t ts /\ zdeg (t_exps t) = Z.of_nat m) ->
     (J (fun x => qdot l x ^ Z.of_nat m) == inject_Z (zfact m) * form_integral (s_vol s) n (s_vertices s) l m)%Q) ->
  good_terms n ts -> NoDup (map t_exps ts) -> ts <> [] ->
  Forall (fun t => 0 < zdeg (t_exps t) /\ zdeg (t_exps t) + Z.of_nat n < 2 ^ 20 - 1) ts ->
  exists a b, bind (decompose ts (new_sum n)) (fun forms => bind (sum_terms rat_zero forms) (fun fs => integrate_forms fs s)) = Ok (a, b) /\ 0 < b /\
    (ratio a b == J (fun x => qsum (term_value x) ts))%Q.
Proof.
  cbv zeta. intros Hn HS HJ HF G ND NE DG. destruct (decompose_exact _ ts Hn G ND NE) as (m & out & E1 & E2 & E3 & _ & E4 & E5).
  rewrite E1. cbn [bind]. rewrite E2. cbn [bind].
  destruct (integrate_forms_ok s out HS) as (a & b & I1 & I2 & I3); auto.
  { eapply Forall_impl; [|exact E4]. cbv beta. intros t (A1 & A2 & A3 & u & Hu & Du). rewrite Forall_forall in DG. destruct (DG u Hu) as [D1 D2].
    split; [lia|]. split; [lia|]. split; auto. intros (_ & Z0 & _). lia. }
  exists a, b. split; auto. split; auto. rewrite I3.
  rewrite <- (J_ext _ J HJ (fun x => qsum (out_value x) out) _ E5). rewrite (J_sum _ J (fun t x => out_value x t) out HJ).
  apply qsum_ext. intros t Ht. rewrite Forall_forall in E4. destruct (E4 t Ht) as (A1 & A2 & A3 & u & Hu & Du). rewrite Forall_forall in DG. destruct (DG u Hu) as [D1 D2].
  unfold term_integral. set (k := Z.to_nat (t_deg t)).
  rewrite (J_ext _ J HJ (fun x => out_value x t) (fun x => (value (t_coef t) / inject_Z (zfact k)) * (qdot (t_exps t) x ^ Z.of_nat k))%Q).
  - rewrite (J_scale _ J HJ (value (t_coef t) / inject_Z (zfact k)) (fun x => qdot (t_exps t) x ^ Z.of_nat k)%Q). rewrite HF; [field| | |].
    + apply injz_nz. pose proof (zfact_pos k). lia.
    + exact A3.
    + lia.
    + exists u. split; auto. lia.
  - intros x _. unfold out_value. fold k. replace (Z.of_nat k) with (t_deg t) by lia. field. apply injz_nz. pose proof (zfact_pos k). lia.
Qed.
