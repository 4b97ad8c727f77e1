(** Dilation of the polytope and of the integrand. *)
From Coq Require Import QArith Qabs Qfield Qpower Permutation.
From Verif Require Import Common Rational RationalSpec RationalProofs RatVec RatVecSpec RatVecProofs Trie TrieSpec TrieProofs2 Integ IntegSpec IntegMath IntegProofs2 IntegProofs4 IntegProofs5 DecompProofs Series ZMat Det DetProofs PerturbSpec PerturbProofs6 Valuation ValuationSpec ValuationProofs ValuationProofs2.
Open Scope Z_scope.

(** ** Selections *)
Lemma F2cons {A B} (R : A -> B -> Prop) a la lb : Forall2 R (a :: la) lb -> exists b lb', lb = b :: lb' /\ R a b /\ Forall2 R la lb'.
Proof. inversion 1; subst. eauto. Qed.
Lemma F2nil {A B} (R : A -> B -> Prop) lb : Forall2 R [] lb -> lb = [].
Proof. now inversion 1. Qed.
Lemma selected_F2 (R : list Q -> list Z -> Prop) n ps rays sims idx :
  Forall2 R ps rays -> selected n rays sims idx ->
  Forall2 (fun qs s => length qs = S n /\ Forall2 R qs s) (simplices_of ps idx) sims.
Proof.
  intros HF (-> & HS). unfold simplices_of. induction HS as [|is idx (L & HI) HS IH]; cbn [map]; constructor; auto. split; [now rewrite map_length|].
  clear - HF HI. induction HI as [|i is Hi HI IH]; cbn [map]; constructor; auto. apply (Forall2_nth _ _ _ [] [] HF i). now rewrite (Forall2_length' _ _ _ HF).
Qed.
Lemma volume_loop_ok n qss : forall tri ans, Forall2 (fun qs s => length qs = S n /\ cone_over n qs s) qss (map vc_rays tri) -> lowest_terms ans ->
  exists v, volume_loop (S n) tri ans = Ok v /\ lowest_terms v /\ (value v == value ans + sum_over (simplex_volume n) qss)%Q.
Proof.
  induction qss as [|qs qss IH]; intros [|c tri] ans HF HA; inversion HF as [|? ? ? ? [H1 H2] H3]; subst; cbn [volume_loop].
  - exists ans. split; auto. split; auto. cbn. ring.
  - destruct (volume_determinant_ok n qs (vc_rays c) H2 H1) as (v & -> & V1 & V2). cbn [bind].
    destruct (rat_add_ok ans v HA V1) as [A1 A2]. destruct (IH tri (rat_add ans v) H3 A1) as (u & U1 & U2 & U3). exists u. split; auto. split; auto. rewrite U3, A2, V2. cbn [sum_over fold_right]. fold (sum_over (simplex_volume n) qss). ring.
Qed.
Lemma rat_add_zz_ok a n d : lowest_terms a -> d <> 0 -> exists v, rat_add_zz a n d = Ok v /\ lowest_terms v /\ (value v == value a + inject_Z n / inject_Z d)%Q.
Proof.
  intros [A1 A2] Hd. unfold rat_add_zz. destruct (Z.eqb_spec d 0); [contradiction|]. cbn [negb assert_then].
  destruct (canonicalize_correct (num a * d + n * den a) (den a * d)) as [C1 C2]; [nia|]. eexists. split; [reflexivity|]. split; auto.
  rewrite C2, (value_div a) by auto. rewrite inject_Z_plus, !inject_Z_mult. field. split; apply injz_nz; lia.
Qed.
Definition scaled_term (n : nat) (k : Z) (qs : list (list Q)) (t : bterm rat) : Q :=
  (value (t_coef t) * (inject_Z k ^ Z.of_nat (n + Z.to_nat (t_deg t)) * power_integral n qs (t_exps t) (Z.to_nat (t_deg t))))%Q.
Lemma simplices_loop_ok n k ts qss : (n < 1000)%nat -> 0 < k -> ts <> [] -> Forall (form_ok n) ts ->
  forall tri ans, Forall2 (fun qs s => length qs = S n /\ dilated n k qs (map (firstn n) s)) qss (map vc_rays tri) -> lowest_terms ans ->
  exists v, simplices_loop (S n) n ts tri ans = Ok v /\ lowest_terms v /\
    (value v == value ans + sum_over (fun qs => sum_over (scaled_term n k qs) ts) qss)%Q.
Proof.
  intros Hn Hk NT HT. induction qss as [|qs qss IH]; intros [|c tri] ans HF HA; inversion HF as [|? ? ? ? [H1 H2] H3]; subst; cbn [simplices_loop].
  - exists ans. split; auto. split; auto. cbn. ring.
  - destruct (simplex_integral_ok n k qs (vc_rays c) ts Hn Hk H2 H1 NT HT) as (s & a & b & -> & E1 & E2 & E3). cbn [bind]. rewrite E1. cbn [bind fst snd].
    destruct (rat_add_zz_ok ans a b HA) as (v & -> & V1 & V2); [lia|]. cbn [bind].
    destruct (IH tri v H3 V1) as (u & U1 & U2 & U3). exists u. split; auto. split; auto. rewrite U3, V2, E3. cbn [sum_over fold_right]. fold (sum_over (fun qs => sum_over (scaled_term n k qs) ts) qss). unfold scaled_term at 2. ring.
Qed.

(** ** The dilation factor *)
Lemma vlcm_ok a b : 0 < a -> 0 < b -> exists f, vlcm a b = Ok f /\ 0 < f /\ (a | f) /\ (b | f) /\ (a = b -> f = a) /\ (a = 1 -> f = b).
Proof.
  intros Ha Hb. unfold vlcm. pose proof (gcd_nz_r a b ltac:(lia)) as G. rewrite zdiv_ok by lia. exists (a * b / Z.gcd a b). split; auto.
  destruct (Z.gcd_divide_l a b) as [x Hx]. destruct (Z.gcd_divide_r a b) as [y Hy]. set (g := Z.gcd a b) in *.
  assert (E : a * b / g = a * y). { rewrite Hy at 1. rewrite (Z.mul_assoc a y g). apply Z.div_mul. lia. }
  rewrite E. split; [nia|]. split; [exists y; ring|]. split; [exists x; rewrite Hx, Hy; ring|]. split.
  - intros <-. assert (g = a) by (unfold g; rewrite Z.gcd_diag; lia). assert (y = 1) by nia. nia.
  - intros ->. assert (g = 1) by (unfold g; apply Z.gcd_1_l). nia.
Qed.
Lemma at_ok r i : (i < length r)%nat -> at_ r i = Ok (nth i r 0).
Proof. intros H. unfold at_. rewrite (nth_error_nth' r 0 H). reflexivity. Qed.
Definition ray_ok (n : nat) (r : list Z) : Prop := length r = S n /\ 0 < nth n r 0.
Lemma factor_one_ok n rays : Forall (ray_ok n) rays -> forall acc, 0 < acc ->
  exists k, factor_one (S n) rays acc = Ok k /\ 0 < k /\ (acc | k) /\ Forall (fun r => (nth n r 0 | k)) rays /\
    (forall e, (acc = 1 \/ acc = e) -> Forall (fun r => nth n r 0 = e) rays -> rays <> [] \/ acc = e -> k = e).
Proof.
  induction 1 as [|r rays (H1 & H2) HF IH]; intros acc Ha; cbn [factor_one].
  - exists acc. split; auto. split; auto. split; [apply Z.divide_refl|]. split; [constructor|]. intros e _ _ [N| ->]; congruence.
  - replace (S n - 1)%nat with n by lia. rewrite at_ok by lia. cbn [bind]. destruct (vlcm_ok acc (nth n r 0) Ha H2) as (f & -> & F1 & F2 & F3 & F4 & F5). cbn [bind].
    destruct (IH f F1) as (k & K1 & K2 & K3 & K4 & K5). exists k. split; auto. split; auto. split; [eapply Z.divide_trans; eauto|]. split; [constructor; auto; eapply Z.divide_trans; eauto|].
    intros e E1 E2 _. pose proof (Forall_inv E2) as E3. cbv beta in E3. apply K5; [right|exact (Forall_inv_tail E2)|right]; destruct E1 as [->| ->]; auto; rewrite <- E3; auto; rewrite F4; congruence.
Qed.
Lemma upd_nth_id (l : list Z) i x : (i < length l)%nat -> nth i l 0 = x -> upd l i x = l.
Proof. revert i; induction l as [|y l IH]; intros [|i] H E; cbn in *; try lia; [now subst|]. f_equal. apply IH; auto. lia. Qed.
Lemma dilate_one_ok n k rays : 0 < k -> Forall (ray_ok n) rays -> Forall (fun r => (nth n r 0 | k)) rays ->
  exists rs, dilate_one (S n) k rays = Ok rs /\ Forall2 (fun r r' => r' = map (fun x => x * (k / nth n r 0)) r) rays rs.
Proof.
  intros Hk. induction 1 as [|r rays (H1 & H2) HF IH]; intros HD; cbn [dilate_one]; [exists []; split; auto|].
  replace (S n - 1)%nat with n by lia. rewrite at_ok by lia. cbn [bind]. unfold ntl_divide. destruct (Z.eqb_spec (nth n r 0) 0); [lia|].
  destruct (Forall_inv HD) as [q Hq]. rewrite Hq, Z.mod_mul by lia. cbn [Z.eqb]. rewrite <- Hq. destruct (IH (Forall_inv_tail HD)) as (rs & -> & R). cbn [bind]. eexists. split; [reflexivity|].
  constructor; auto. apply upd_nth_id; [rewrite map_length; lia|]. rewrite (nth_map0 _ _ _ 0 0) by lia. rewrite Hq at 1. rewrite Z.div_mul by lia. lia.
Qed.
(** Rays that all end in [e] and span the dilated points. *)
Definition leveled (n : nat) (k e : Z) (ps : list (list Q)) (rays : list (list Z)) : Prop :=
  Forall2 (fun p r => length p = n /\ length r = S n /\ nth n r 0 = e /\ forall j, (j < n)%nat -> (inject_Z (nth j r 0%Z) == inject_Z k * nth j p 0)%Q) ps rays.
Lemma dilate_cone_ok n ps rays : cone_over n ps rays -> exists k rs, factor_one (S n) rays 1 = Ok k /\ 0 < k /\ dilate_one (S n) k rays = Ok rs /\ leveled n k k ps rs /\
  (forall e, leveled n e e ps rays -> rays <> [] -> k = e /\ rs = rays).
Proof.
  intros HC. assert (RO : Forall (ray_ok n) rays). { clear - HC. induction HC as [|p r ps rays (H1 & H2 & H3 & _) HC IH]; constructor; auto. split; auto. }
  destruct (factor_one_ok n rays RO 1) as (k & K1 & K2 & _ & K4 & K5); [lia|]. destruct (dilate_one_ok n k rays K2 RO K4) as (rs & R1 & R2).
  exists k, rs. split; auto. split; auto. split; auto. split.
  - clear K1 K5 R1 RO. revert rs R2 K4. induction HC as [|p r ps rays (H1 & H2 & H3 & H4) HC IH]; intros rs R2 K4; [apply F2nil in R2; subst; constructor|]. apply F2cons in R2 as (r' & rs' & -> & -> & R3). constructor; [|apply IH; auto; exact (Forall_inv_tail K4)].
    destruct (Forall_inv K4) as [q Hq]. split; auto. split; [now rewrite map_length|]. assert (EQ : k / nth n r 0 = q) by (rewrite Hq; apply Z.div_mul; lia).
    rewrite EQ. split; [rewrite (nth_map0 _ _ _ 0 0) by lia; lia|]. intros j Hj. rewrite (nth_map0 _ _ _ 0 0) by lia. rewrite inject_Z_mult, H4 by auto. rewrite Hq, inject_Z_mult. ring.
  - intros e HL NE. assert (EE : Forall (fun r => nth n r 0 = e) rays). { clear - HL. induction HL as [|p r ps rays (_ & _ & H & _) HL IH]; constructor; auto. }
    assert (KE : k = e) by (apply K5; auto). split; auto. clear - R2 EE KE RO. subst e. induction R2 as [|r r' rays rs -> R2 IH]; auto. f_equal; [|apply IH; [exact (Forall_inv_tail RO)|exact (Forall_inv_tail EE)]].
    destruct (Forall_inv RO) as [_ P]. rewrite (Forall_inv EE) in *. rewrite Z.div_same by lia. rewrite <- (map_id r) at 2. apply map_ext. intros. ring.
Qed.
