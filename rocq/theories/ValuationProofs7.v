(** Volumes and integrals by triangulation. *)
From Coq Require Import QArith Qabs Qfield Qpower Permutation.
From Verif Require Import Common Rational RationalSpec RationalProofs RatVec RatVecSpec RatVecProofs Trie TrieSpec TrieProofs TrieProofs2 Integ IntegSpec IntegMath IntegProofs2 IntegProofs4 IntegProofs5 DecompProofs DecompProofs3 DecompProofs4 Series ZMat Det DetProofs PerturbSpec PerturbProofs6 Valuation ValuationSpec ValuationSpec2 ValuationProofs ValuationProofs2 ValuationProofs3 ValuationProofs4 ValuationProofs5 ValuationProofs6.
Open Scope Z_scope.

Lemma build_rays_cone n cones : n <> O -> Forall (fun c => vertex_ok n (vc_vertex c)) cones ->
  exists rs, build_rays n cones = Ok rs /\ cone_over n (map (fun c => point (vc_vertex c)) cones) rs.
Proof.
  intros Hn. induction 1 as [|c cones V HF IH]; cbn [build_rays map]; [exists []; split; [reflexivity|constructor]|].
  destruct V as (I & Hd). pose proof (scale_ok positive good_positive (vc_vertex c) I) as (v' & w & s & E & I' & N' & D' & Ew & Es & C). rewrite Hd in E. rewrite E. cbn [bind].
  destruct IH as (rs & -> & L). cbn [bind]. eexists. split; [reflexivity|]. constructor; auto.
  destruct I' as (_ & I2' & I3'). destruct (I3' C) as ((C1 & C2 & C3 & C4 & C5) & C6).
  assert (dv : dim v' = n) by (unfold dim in *; now rewrite N'). assert (DE : forall i, den_at v' i = den_at (vc_vertex c) i) by (intros i; unfold den_at; now rewrite D'). assert (NE : forall i, num_at v' i = num_at (vc_vertex c) i) by (intros i; unfold num_at; now rewrite N').
  rewrite <- Ew, dv in C1. rewrite <- Ew, <- Es in C3. rewrite dv in C3.
  split; [unfold point; rewrite map_length, seq_length; exact Hd|]. split; [rewrite app_length; cbn; lia|]. assert (LN : nth n (w ++ [s]) 0 = s) by (rewrite app_nth2 by lia; rewrite C1, Nat.sub_diag; reflexivity). rewrite LN.
  split; [rewrite Es; apply C6; [exact I2'|lia]|]. intros j Hj. rewrite app_nth1 by lia. rewrite (nth_point n _ j); [|split; auto|auto]. specialize (C3 j Hj). rewrite DE, NE in C3. unfold coord.
  assert (N : ~ (inject_Z (den_at (vc_vertex c) j) == 0)%Q). { apply injz_nz. destruct I as (_ & I2 & _). pose proof (Forall_den positive (vc_vertex c) j ltac:(unfold positive; lia) I2) as P. unfold positive in P. lia. }
  apply (f_equal inject_Z) in C3. rewrite !inject_Z_mult in C3. apply (Qmult_inj_r _ _ (inject_Z (den_at (vc_vertex c) j))); auto. rewrite C3. field. exact N.
Qed.
Lemma hsym0 xs : (qhsym xs 0 == 1)%Q.
Proof. induction xs as [|x xs IH]; cbn [qhsym]; [reflexivity|]. cbn [seq sum_over fold_right]. rewrite Nat.sub_0_r, IH. cbn. ring. Qed.
Lemma power_integral_0 n qs e : (power_integral n qs e 0 == simplex_volume n qs)%Q.
Proof. unfold power_integral, simplex_volume. rewrite hsym0, Nat.add_0_r. unfold Qdiv. ring. Qed.

Lemma tri_volume n T ps c idx : cone_over n ps (vc_rays c) -> selected n (vc_rays c) (map vc_rays (T (S n) c)) idx ->
  exists v, volume_loop (S n) (T (S n) c) (mkRat 0 1) = Ok v /\ lowest_terms v /\ (value v == sum_over (simplex_volume n) (simplices_of ps idx))%Q.
Proof.
  intros HC HS. destruct (volume_loop_ok n (simplices_of ps idx) (T (S n) c) (mkRat 0 1)) as (v & V1 & V2 & V3).
  - exact (selected_F2 _ n ps (vc_rays c) _ idx HC HS).
  - split; cbn; lia || reflexivity.
  - exists v. split; auto. split; auto. rewrite V3. change (value (mkRat 0 1)) with (0#1)%Q. ring.
Qed.
Lemma dilated_firstn n k e qs s : Forall2 (fun p r => length p = n /\ length r = S n /\ nth n r 0 = e /\ forall j, (j < n)%nat -> (inject_Z (nth j r 0%Z) == inject_Z k * nth j p 0)%Q) qs s -> dilated n k qs (map (firstn n) s).
Proof. exact (leveled_dilated n k e qs s). Qed.
Lemma Forall2_impl2 {A B} (R R' : A -> B -> Prop) l l' : (forall a b, R a b -> R' a b) -> Forall2 R l l' -> Forall2 R' l l'.
Proof. intros H. induction 1; constructor; auto. Qed.
Lemma tri_integral n T k e ps c idx ts : (n < 1000)%nat -> 0 < k -> ts <> [] -> Forall (form_ok n) ts -> leveled n k e ps (vc_rays c) -> selected n (vc_rays c) (map vc_rays (T (S n) c)) idx ->
  exists v, simplices_loop (S n) n ts (T (S n) c) (mkRat 0 1) = Ok v /\ lowest_terms v /\
    (value v == sum_over (fun qs => sum_over (scaled_term n k qs) ts) (simplices_of ps idx))%Q.
Proof.
  intros Hn Hk NT HT HL HS. destruct (simplices_loop_ok n k ts (simplices_of ps idx) Hn Hk NT HT (T (S n) c) (mkRat 0 1)) as (v & V1 & V2 & V3).
  - eapply Forall2_impl2; [|exact (selected_F2 _ n ps (vc_rays c) _ idx HL HS)]. intros qs s (A & B). split; auto. exact (dilated_firstn n k e qs s B).
  - split; cbn; lia || reflexivity.
  - exists v. split; auto. split; auto. rewrite V3. change (value (mkRat 0 1)) with (0#1)%Q. ring.
Qed.
(** The integral of [c + sum out] over the simplices, from the split form. *)
Definition split_integral (n : nat) (k : Z) (c : rat) (out : list (bterm rat)) (sims : list (list (list Q))) : Q :=
  (value c * qsum (simplex_volume n) sims + qsum (fun t => value (t_coef t) * (inject_Z k ^ t_deg t * qsum (fun qs => power_integral n qs (t_exps t) (Z.to_nat (t_deg t))) sims)) out)%Q.
Lemma qsum_swap2 {A B} (f : A -> B -> Q) la lb : (qsum (fun a => qsum (f a) lb) la == qsum (fun b => qsum (fun a => f a b) la) lb)%Q.
Proof.
  induction la as [|a la IH]; cbn [qsum]; [|rewrite IH, <- qsum_plus; reflexivity]. induction lb as [|b lb IHb]; cbn [qsum]; [reflexivity|]. rewrite <- IHb. ring.
Qed.
Lemma scaled_sum n k ts sims : Forall (fun t => 0 <= t_deg t) ts ->
  (sum_over (fun qs => sum_over (scaled_term n k qs) ts) sims == inject_Z k ^ Z.of_nat n * qsum (fun t => value (t_coef t) * (inject_Z k ^ t_deg t * qsum (fun qs => power_integral n qs (t_exps t) (Z.to_nat (t_deg t))) sims)) ts)%Q.
Proof.
  intros HF. transitivity (qsum (fun qs => qsum (scaled_term n k qs) ts) sims); [rewrite sum_over_qsum; apply qsum_ext; intros; rewrite sum_over_qsum; reflexivity|]. rewrite qsum_swap2, <- qsum_scale. apply qsum_ext. intros t Ht. rewrite Forall_forall in HF. specialize (HF t Ht).
  unfold scaled_term. rewrite (qsum_ext _ (fun qs => (value (t_coef t) * inject_Z k ^ Z.of_nat (n + Z.to_nat (t_deg t))) * power_integral n qs (t_exps t) (Z.to_nat (t_deg t)))%Q) by (intros; ring).
  rewrite qsum_scale, qpow_add, Z2Nat.id by auto. ring.
Qed.
Definition one_state (n : nat) (c : vcone) (tri : list vcone) : pval := mkVal (S n) (S n) [] (Some c) tri.
Definition rays_state (n : nat) (cones : list vcone) (c : vcone) (tri : list vcone) : pval := mkVal n (S n) cones (Some c) tri.
Lemma triangulate_ready T st c : pv_cone st = Some c -> (pv_tri st = [] \/ pv_tri st = T (pv_one st) c) ->
  triangulate_one T st = Ok (mkVal (pv_vars st) (pv_one st) (pv_cones st) (Some c) (T (pv_one st) c)).
Proof.
  destruct st as [a b d e f]. cbn [pv_cone pv_tri pv_one pv_vars pv_cones]. intros -> [-> | ->]; unfold triangulate_one; cbn [pv_cone pv_tri pv_one pv_vars pv_cones]; [reflexivity|]. destruct (T b c); reflexivity.
Qed.
Lemma convert_ready st c : pv_cone st = Some c -> convert_to_one st = Ok st.
Proof. intros H. unfold convert_to_one. now rewrite H. Qed.
Lemma rat_eqb_zero c : lowest_terms c -> rat_eqb_z c 0 = true <-> (value c == 0)%Q.
Proof. exact (rat_zero_ok c). Qed.
(** The common part: [e] is the last entry of the rays. *)
Lemma integrate_ready n T k e ps vars cones c tri idx fuel rs rs' m co out :
  n <> O -> (n < 1000)%nat -> 0 < k -> leveled n k e ps (vc_rays c) -> selected n (vc_rays c) (map vc_rays (T (S n) c)) idx ->
  (vars = S n /\ e = k) \/ (vars = n /\ e = 1) -> (tri = [] \/ tri = T (S n) c) -> split_form n k m co out ->
  exists v, integrate_dilated T fuel rs rs' Triangulation n k m co (mkVal vars (S n) cones (Some c) tri) = Ok (v, mkVal vars (S n) cones (Some c) (T (S n) c)) /\
    lowest_terms v /\ (value v == split_integral n k co out (simplices_of ps idx))%Q.
Proof.
  intros Hn0 Hn Hk HL HS HE HT (MV & LC & MT & FO).
  assert (FO1 : Forall (form_ok n) out) by (eapply Forall_impl; [|exact FO]; cbv beta; tauto).
  assert (FO2 : Forall (fun t => 0 <= t_deg t) out) by (eapply Forall_impl; [|exact FO1]; unfold form_ok; cbv beta; lia).
  assert (L01 : lowest_terms (mkRat 0 1)) by (split; cbn; lia || reflexivity).
  assert (KN : k ^ Z.of_nat n <> 0) by (apply kpow_nz; lia).
  assert (KQ : ~ (inject_Z k ^ Z.of_nat n == 0)%Q) by (rewrite <- qpow_inj; now apply injz_nz).
  unfold integrate_dilated. rewrite (convert_ready _ c) by reflexivity. cbn [bind]. rewrite (triangulate_ready T _ c) by (cbn; auto). cbn [bind pv_one pv_vars pv_cones].
  set (st2 := mkVal vars (S n) cones (Some c) (T (S n) c)).
  (* the integral of the forms *)
  assert (I : exists v, integral_triangulation st2 m = Ok v /\ lowest_terms v /\ (value v == inject_Z k ^ Z.of_nat n * qsum (fun t => value (t_coef t) * (inject_Z k ^ t_deg t * qsum (fun qs => power_integral n qs (t_exps t) (Z.to_nat (t_deg t))) (simplices_of ps idx))) out)%Q).
  { unfold integral_triangulation. destruct MT as [(M0 & ->)|(M1 & M2)].
    - rewrite M0. cbn [Nat.eqb]. exists (mkRat 0 1). split; auto. split; auto. cbn [qsum]. change (value (mkRat 0 1)) with (0#1)%Q. ring.
    - destruct (Nat.eqb_spec (ms_terms m) 0); [contradiction|]. destruct M2 as [M2 M3]. rewrite M2. cbn [bind]. rewrite MV. subst st2. cbn [pv_one pv_tri].
      destruct (tri_integral n T k e ps c idx out Hn Hk M3 FO1 HL HS) as (v & V1 & V2 & V3). exists v. split; auto. split; auto. rewrite V3. apply scaled_sum; auto. }
  destruct I as (v & -> & V1 & V2). cbn [bind].
  destruct (rat_add_ok (mkRat 0 1) v L01 V1) as [A1 A2]. destruct (rat_div_z_ok _ _ A1 KN) as [B1 B2].
  assert (BV : (value (rat_div_z (rat_add (mkRat 0 1) v) (k ^ Z.of_nat n)) == qsum (fun t => value (t_coef t) * (inject_Z k ^ t_deg t * qsum (fun qs => power_integral n qs (t_exps t) (Z.to_nat (t_deg t))) (simplices_of ps idx))) out)%Q).
  { rewrite B2, A2, V2, qpow_inj. change (value (mkRat 0 1)) with (0#1)%Q. field. exact KQ. }
  destruct (rat_eqb_z co 0) eqn:CZ; cbn [negb].
  - apply rat_eqb_zero in CZ; auto. eexists. split; [reflexivity|]. split; auto. rewrite BV. unfold split_integral. rewrite CZ. ring.
  - assert (W : exists w, find_volume T fuel rs' Triangulation st2 = Ok (w, st2) /\ lowest_terms w /\
       (value w == (if (e =? k)%Z then 1 else inject_Z k ^ Z.of_nat n) * qsum (simplex_volume n) (simplices_of ps idx))%Q).
    { unfold find_volume. rewrite (convert_ready _ c) by reflexivity. cbn [bind]. rewrite (triangulate_ready T st2 c) by (cbn; auto). cbn [bind pv_one pv_vars pv_cones pv_tri]. subst st2. cbn [pv_one pv_vars pv_cones pv_tri].
      destruct (Z.eqb_spec e k) as [EK|EK].
      - destruct (tri_volume n T ps c idx) as (w & -> & W2 & W3); auto; [apply (leveled_cone n k); auto; now rewrite <- EK at 2|]. cbn [bind]. exists w. split; auto. split; auto. rewrite W3, sum_over_qsum. ring.
      - destruct HE as [(_ & X)|(_ & E1)]; [contradiction|]. rewrite E1 in HL. destruct (tri_volume n T (map (qscale k) ps) c idx) as (w & -> & W2 & W3); auto; [apply leveled_cone1; auto|]. cbn [bind]. exists w. split; auto. split; auto. rewrite W3, sum_over_qsum.
        assert (PL : length ps = length (vc_rays c)) by (exact (Forall2_length' _ _ _ HL)). destruct HS as (_ & HS). clear - Hk HS PL. rewrite <- qsum_scale. unfold simplices_of. rewrite !qsum_map. apply qsum_ext. intros is Hi. rewrite Forall_forall in HS. destruct (HS is Hi) as [L F].
        rewrite <- volume_qscale by (auto; now rewrite map_length). rewrite map_map. assert (EM : map (fun i => nth i (map (qscale k) ps) []) is = map (fun x => qscale k (nth x ps [])) is); [|now rewrite EM].
        apply map_ext. intros i. change (@nil Q) with (qscale k []) at 1. apply map_nth. }
    destruct W as (w & -> & W1 & W2). cbn [bind]. destruct (rat_mul_ok w co W1 LC) as [C1 C2].
    assert (X : exists w2, (if negb (pv_vars st2 =? pv_one st2)%nat then rat_div_z (rat_mul_fun w co) (k ^ Z.of_nat n) else rat_mul_fun w co) = w2 /\ lowest_terms w2 /\ (value w2 == value co * qsum (simplex_volume n) (simplices_of ps idx))%Q).
    { eexists. split; [reflexivity|]. subst st2. cbn [pv_vars pv_one]. destruct HE as [(-> & ->)|(-> & E1)].
      - rewrite Nat.eqb_refl. cbn [negb]. split; auto. rewrite C2, W2, Z.eqb_refl. ring.
      - destruct (Nat.eqb_spec n (S n)); [lia|]. cbn [negb]. destruct (rat_div_z_ok _ _ C1 KN) as [D1 D2]. split; auto. rewrite D2, C2, W2, qpow_inj. destruct (Z.eqb_spec e k) as [EK|EK].
        + assert (k = 1) by congruence. subst k. rewrite H in *. change (inject_Z 1) with 1%Q. rewrite Qpower_1. field.
        + field. exact KQ. }
    destruct X as (w2 & -> & X1 & X2). eexists. split; [reflexivity|]. destruct (rat_add_ok _ w2 B1 X1) as [D1 D2]. split; auto. rewrite D2, BV, X2. unfold split_integral. ring.
Qed.
