(** Complete calls and histories of calls. *)
From Coq Require Import QArith Qabs Qfield Qpower Permutation.
From Verif Require Import Common Rational RationalSpec RationalProofs RatVec RatVecSpec RatVecProofs Trie TrieSpec TrieProofs TrieProofs2 Integ IntegSpec IntegMath IntegProofs2 IntegProofs4 IntegProofs5 DecompProofs DecompProofs3 DecompProofs4 Series ZMat Det DetProofs PerturbSpec PerturbProofs6 Valuation ValuationSpec ValuationSpec2 ValuationProofs ValuationProofs2 ValuationProofs3 ValuationProofs4 ValuationProofs5 ValuationProofs6 ValuationProofs7.
Open Scope Z_scope.

Lemma cone_over_1 n ps rays : cone_over n ps rays -> cone_over n (map (qscale 1) ps) rays.
Proof.
  induction 1 as [|p r ps rays (A & B & C & D) HF IH]; cbn [map]; constructor; auto. split; [unfold qscale; now rewrite map_length|]. split; auto. split; auto. intros j Hj. rewrite nth_qscale, D by auto. change (inject_Z 1) with 1%Q. ring.
Qed.
Lemma point_ok n v : n <> O -> rational_point n v -> vertex_ok n v.
Proof.
  intros Hn (A & B & C & D). unfold vertex_ok, inv, dim. rewrite A, B. split; auto. split; auto. split; [exact C|]. intros E. destruct (D E) as (D1 & D2 & D3 & D4 & D5). unfold cache_ok, dim. rewrite A. split; auto. split; auto. split; [lia|]. auto.
Qed.
Lemma describes_cases n st ps : n <> O -> describes n st ps ->
  (exists c, st = from_one (S n) c /\ cone_over n ps (vc_rays c)) \/
  (exists cones, st = from_cones n cones /\ cones <> [] /\ Forall (fun c => vertex_ok n (vc_vertex c)) cones /\ ps = map (fun c => point (vc_vertex c)) cones).
Proof. intros Hn [H|(cones & A & B & C & D)]; [now left|]. right. exists cones. split; auto. split; auto. split; auto. eapply Forall_impl; [|exact C]. intros c. apply point_ok; auto. Qed.
Lemma volume_ok n T st ps fuel rs : n <> O -> describes n st ps -> simplex_cones n T ->
  exists v st' c idx, find_volume T fuel rs Triangulation st = Ok (v, st') /\ lowest_terms v /\ triangulated n T ps c idx /\
    (value v == total_volume n (simplices_of ps idx))%Q.
Proof.
  intros Hn HD HT. apply describes_cases in HD; auto. assert (X : exists st1 c, convert_to_one st = Ok st1 /\ pv_one st1 = S n /\ pv_cone st1 = Some c /\ pv_tri st1 = [] /\ cone_over n ps (vc_rays c)).
  { destruct HD as [(c & -> & HC)|(cones & -> & NE & HV & ->)].
    - exists (from_one (S n) c), c. repeat (split; [reflexivity|]). auto.
    - destruct (build_rays_cone n cones Hn HV) as (rays & B1 & B2). unfold convert_to_one, from_cones. cbn [pv_cone pv_tri pv_cones pv_vars pv_one]. destruct cones as [|k ks]; [congruence|]. rewrite Nat.eqb_refl. cbn [assert_then]. rewrite B1. cbn [bind].
      eexists _, _. split; [reflexivity|]. cbn [pv_one pv_cone pv_tri]. split; [lia|]. split; [reflexivity|]. split; [reflexivity|]. exact B2. }
  destruct X as (st1 & c & E & E1 & E2 & E3 & HC). destruct (HT c) as (idx & HS). destruct (tri_volume n T ps c idx HC HS) as (v & V1 & V2 & V3).
  unfold find_volume. rewrite E. cbn [bind]. rewrite (triangulate_ready T st1 c E2 (or_introl E3)). cbn [bind pv_one pv_tri]. rewrite E1, V1. cbn [bind].
  eexists v, _, c, idx. split; [reflexivity|]. split; auto. split; [split; auto; exists 1; split; [lia|]; now apply cone_over_1|]. exact V3.
Qed.
(** After the dilation the object is ready: leveled rays. *)
Lemma dilate_object n st ps : n <> O -> describes n st ps -> exists k st1, dilate st = Ok (k, st1) /\ 0 < k /\
  exists vars cones c e, convert_to_one st1 = Ok (mkVal vars (S n) cones (Some c) []) /\ leveled n k e ps (vc_rays c) /\ ((vars = S n /\ e = k) \/ (vars = n /\ e = 1)).
Proof.
  intros Hn HD. apply describes_cases in HD; auto. destruct HD as [(c & -> & HC)|(cones & -> & NE & HV & ->)].
  - destruct (dilate_cone_ok n ps (vc_rays c) HC) as (k & rays & K1 & K2 & K3 & K4 & _). unfold dilate, from_one. cbn [pv_vars pv_one pv_cone]. rewrite Nat.eqb_refl. cbn [negb]. rewrite K1. cbn [bind]. rewrite K3. cbn [bind].
    eexists k, _. split; [reflexivity|]. split; auto. eexists _, _, _, k. split; [reflexivity|]. cbn [vc_rays]. split; auto.
  - destruct (factor_rays_ok n cones HV 1 ltac:(lia)) as (k & K1 & K2 & _ & K4). destruct (dilate_rays_ok n k cones K2 HV K4) as (cs & C1 & C2).
    unfold dilate, from_cones. cbn [pv_vars pv_one pv_cones pv_cone pv_tri]. destruct (Nat.eqb_spec n (n + 1)); [lia|]. cbn [negb]. destruct cones as [|c0 cones'] eqn:EC; [congruence|]. rewrite <- EC in *. rewrite K1. cbn [bind]. rewrite C1. cbn [bind].
    eexists k, _. split; [reflexivity|]. split; auto. destruct (build_rays_ok n k cones cs Hn HV C2) as (rays & R1 & R2). unfold convert_to_one. cbn [pv_vars pv_one pv_cones pv_cone pv_tri]. rewrite Nat.eqb_refl. cbn [assert_then].
    rewrite R1. cbn [bind]. destruct cs as [|x cs]; [rewrite EC in C2; inversion C2|]. rewrite Nat.add_1_r. eexists _, _, _, 1. split; [reflexivity|]. cbn [vc_rays]. split; auto.
Qed.
Lemma integrate_converted T fuel rs rs' vars k m c st st1 : convert_to_one st = Ok st1 -> (exists k, pv_cone st1 = Some k) ->
  integrate_dilated T fuel rs rs' Triangulation vars k m c st = integrate_dilated T fuel rs rs' Triangulation vars k m c st1.
Proof. intros E (d & Hd). unfold integrate_dilated. rewrite E, (convert_ready st1 d Hd). reflexivity. Qed.

(** ** Answers from the split form *)
Lemma split_forms n k co out l sims :
  (forall (h : Z -> list Z -> Q) h0, (forall e, h 0%Z e == h0)%Q ->
      (value co * h0 + qsum (fun t => value (t_coef t) * (inject_Z k ^ t_deg t * h (t_deg t) (t_exps t))) out == qsum (fun p => value (fst (fst p)) * h (snd (fst p)) (snd p)) l)%Q) ->
  (split_integral n k co out sims == forms_integral n sims l)%Q.
Proof.
  intros H. unfold split_integral. rewrite (H (fun d e => qsum (fun qs => power_integral n qs e (Z.to_nat d)) sims) (qsum (simplex_volume n) sims)).
  - unfold forms_integral. rewrite sum_over_qsum. apply qsum_ext. intros p _. rewrite sum_over_qsum. reflexivity.
  - intros e. apply qsum_ext. intros qs _. apply power_integral_0.
Qed.
Lemma J_qsum n J {A} (g : A -> list Q -> Q) l : linear_functional n J -> (J (fun x => qsum (fun a => g a x) l) == qsum (fun a => J (g a)) l)%Q.
Proof.
  intros (J1 & J2 & J3). induction l as [|a l IH]; cbn [qsum].
  - rewrite (J1 (fun _ => 0%Q) (fun x => (0 * 0)%Q)) by (intros; ring). rewrite (J3 0%Q (fun _ => 0%Q)). ring.
  - rewrite (J2 (g a) (fun x => qsum (fun a => g a x) l)), IH. reflexivity.
Qed.
Lemma split_polynomial n k co out D sims (P : list Q -> Q) J : 0 <= D -> integrates n sims D J ->
  Forall (fun t => 0 <= t_deg t <= D /\ length (t_exps t) = n) out ->
  (forall x, length x = n -> (value co + qsum (fun t => value (t_coef t) * (inject_Z k ^ t_deg t * (qdot (t_exps t) x ^ t_deg t / inject_Z (zfact (Z.to_nat (t_deg t)))))) out == P x)%Q) ->
  (split_integral n k co out sims == J P)%Q.
Proof.
  intros HD (HL & HJ) HF HP. pose proof HL as (J1 & J2 & J3). rewrite <- (J1 _ _ HP).
  rewrite (J2 (fun _ => value co) (fun x => qsum (fun t => value (t_coef t) * (inject_Z k ^ t_deg t * (qdot (t_exps t) x ^ t_deg t / inject_Z (zfact (Z.to_nat (t_deg t)))))) out)%Q).
  unfold split_integral. apply Qplus_comp.
  - rewrite (J1 (fun _ => value co) (fun x => (value co * qdot (repeat 0%Z n) x ^ Z.of_nat 0)%Q)) by (intros; change (qdot (repeat 0%Z n) x ^ Z.of_nat 0)%Q with 1%Q; ring).
    rewrite (J3 (value co) (fun x => qdot (repeat 0%Z n) x ^ Z.of_nat 0)%Q). rewrite HJ by (rewrite ?repeat_length; cbn; lia). rewrite sum_over_qsum. apply Qmult_comp; [reflexivity|]. change (inject_Z (zfact 0)) with 1%Q. rewrite Qmult_1_l. apply qsum_ext. intros qs _. symmetry. apply power_integral_0.
  - rewrite (J_qsum n J (fun t x => value (t_coef t) * (inject_Z k ^ t_deg t * (qdot (t_exps t) x ^ t_deg t / inject_Z (zfact (Z.to_nat (t_deg t))))))%Q out HL). apply qsum_ext. intros t Ht. rewrite Forall_forall in HF. destruct (HF t Ht) as ((D1 & D2) & D3).
    set (d := Z.to_nat (t_deg t)). assert (ED : t_deg t = Z.of_nat d) by (unfold d; lia). assert (FN : ~ (inject_Z (zfact d) == 0)%Q) by (apply injz_nz; pose proof (zfact_pos d); lia).
    rewrite (J1 _ (fun x => (value (t_coef t) * inject_Z k ^ t_deg t / inject_Z (zfact d)) * qdot (t_exps t) x ^ Z.of_nat d)%Q) by (intros; rewrite ED; field; exact FN).
    rewrite (J3 _ (fun x => qdot (t_exps t) x ^ Z.of_nat d)%Q). rewrite HJ by (auto; lia). rewrite sum_over_qsum. field. exact FN.
Qed.

(** ** Single calls *)
Lemma ready_triangulated n T ps c idx k e vars : 0 < k -> leveled n k e ps (vc_rays c) -> (vars = S n /\ e = k) \/ (vars = n /\ e = 1) -> selected n (vc_rays c) (map vc_rays (T (S n) c)) idx -> triangulated n T ps c idx.
Proof.
  intros Hk HL HE HS. split; auto. destruct HE as [(_ & ->)|(_ & ->)]; [exists 1; split; [lia|]; apply cone_over_1; apply (leveled_cone n k); auto|exists k; split; auto; now apply leveled_cone1].
Qed.
Lemma forms_ok n T st ps l fuel rs rs' : n <> O -> (n < 1000)%nat -> describes n st ps -> simplex_cones n T -> Forall (form_input n) l -> (exists p, In p l /\ ~ (value (fst (fst p)) == 0)%Q) ->
  exists p v st' c idx, insert_all rat_add rat_zero l (new_sum n) = Ok p /\ find_integral_forms T fuel rs rs' Triangulation p st = Ok (v, st') /\ lowest_terms v /\ triangulated n T ps c idx /\
    (value v == forms_integral n (simplices_of ps idx) l)%Q.
Proof.
  intros Hn Hn' HD HT HL HN. destruct (dilate_object n st ps Hn HD) as (k & st1 & D1 & D2 & vars & cones & c & e & D3 & D4 & D5).
  destruct (dilate_forms_ok n k l Hn D2 HL HN) as (p & m & co & out & F1 & F2 & F3 & F4). destruct (HT c) as (idx & HS).
  destruct (integrate_ready n T k e ps vars cones c [] idx fuel rs rs' m co out Hn Hn' D2 D4 HS D5 (or_introl eq_refl) F3) as (v & V1 & V2 & V3).
  exists p, v. eexists _. pose proof F3 as (MV & _).
  assert (RUN : find_integral_forms T fuel rs rs' Triangulation p st = Ok (v, mkVal vars (S n) cones (Some c) (T (S n) c))).
  { unfold find_integral_forms. rewrite D1. cbn [bind]. rewrite F2. cbn [bind]. rewrite MV. rewrite (integrate_converted _ _ _ _ _ _ _ _ _ _ D3) by (eexists; reflexivity). exact V1. }
  exists c, idx. split; auto. split; [exact RUN|]. split; auto. split; [|rewrite V3; apply split_forms; exact F4]. apply (ready_triangulated n T ps c idx k e vars); auto.
Qed.
Lemma input_monomials n D l : polynomial_input n D l -> Forall (monomial_input n) l.
Proof. intros (A & B & C & _). eapply Forall_impl; [|exact C]. unfold monomial_input. cbv beta. intros p (F & G & H & I). split; auto. split; auto. split; auto. lia. Qed.
Lemma out_bounds n D l out : polynomial_input n D l -> Forall (fun t => form_ok n t /\ length (t_exps t) = n) out -> Forall (fun t => exists p, In p l /\ t_deg t = degree (snd p)) out ->
  Forall (fun t => 0 <= t_deg t <= D /\ length (t_exps t) = n) out.
Proof.
  intros (_ & _ & HL & _) F1 F2. rewrite Forall_forall in *. intros t Ht. destruct (F1 t Ht) as (((A & _) & _) & B). destruct (F2 t Ht) as (p & Hp & E). destruct (HL p Hp) as (_ & _ & _ & C). split; auto. lia.
Qed.
Lemma polynomial_ok n D T st ps l fuel rs rs' : n <> O -> (n < 1000)%nat -> describes n st ps -> simplex_cones n T -> polynomial_input n D l ->
  exists p, insert_all rat_add rat_zero (as_input l) (new_sum n) = Ok p /\
   (~ NoDup (map snd (nonzero_monomials l)) -> forall a, find_integral_polynomial T fuel rs rs' a p st = Err AssertFail) /\
   (NoDup (map snd (nonzero_monomials l)) ->
    exists v st' c idx, find_integral_polynomial T fuel rs rs' Triangulation p st = Ok (v, st') /\ lowest_terms v /\ triangulated n T ps c idx /\
      forall J, integrates n (simplices_of ps idx) D J -> (value v == J (poly_at (input_poly l)))%Q).
Proof.
  intros Hn Hn' HD HT HL. destruct (dilate_object n st ps Hn HD) as (k & st1 & D1 & D2 & vars & cones & c & e & D3 & D4 & D5). pose proof HL as (HD0 & _ & _ & NE).
  destruct (dilate_polynomial_ok n k l Hn D2 (input_monomials n D l HL) NE) as (p & P1 & P2 & P3 & P4). exists p. split; auto. split.
  - intros DUP a. unfold find_integral_polynomial. rewrite D1. cbn [bind]. rewrite P3 by auto. reflexivity.
  - intros ND. destruct (P4 ND) as (m & co & out & F2 & F3 & F4 & F5). destruct (HT c) as (idx & HS).
    destruct (integrate_ready n T k e ps vars cones c [] idx fuel rs rs' m co out Hn Hn' D2 D4 HS D5 (or_introl eq_refl) F3) as (v & V1 & V2 & V3).
    exists v. eexists _, c, idx. split; [|split; [exact V2|split; [apply (ready_triangulated n T ps c idx k e vars); auto|]]].
    + unfold find_integral_polynomial. rewrite D1. cbn [bind]. rewrite F2. cbn [bind]. rewrite P2. rewrite (integrate_converted _ _ _ _ _ _ _ _ _ _ D3) by (eexists; reflexivity). exact V1.
    + intros J HJ. rewrite V3. destruct F3 as (_ & _ & _ & FO). apply (split_polynomial n k co out D); auto. apply (out_bounds n D l out HL); auto.
Qed.
