(** The calls of the cone method. *)
From Coq Require Import QArith Qabs Qfield Lqa Qpower Permutation.
From Verif Require Import Common IntegProofs4 Integ Rational RationalSpec RationalProofs RatVec RatVecSpec RatVecProofs Trie TrieSpec TrieProofs2 IntegSpec ZMat Hermite HermiteProofs Det DetProofs Piped PipedSpec PipedProofs PipedProofs3 ConeSpec CountSpec IntegralSpec IntegMath IntegProofs IntegProofs2 IntegProofs5 Series DecompProofs ExpSpec ExpProofs ExpProofs2 Perturb PerturbSpec PerturbProofs3 PerturbProofs4 PerturbProofs6 CountProofs6 CountProofs7 LimitProofs IntegralProofs3 IntegralProofs4 IntegralProofs5 IntegralProofs6 P_Integral Valuation ValuationSpec ValuationSpec2 ValuationProofs2 ValuationProofs3 ValuationProofs4 ValuationProofs5 ValuationProofs6 ValuationProofs7 ValuationProofs8 ConeMethodSpec ConeMethodProofs ConeMethodProofs2 ConeMethodProofs3.
Open Scope Z_scope.

Lemma fold_perm {A B} (f : A -> list B) l : forall acc, Permutation (fold_left (fun t c => f c ++ t) l acc) (flat_map f l ++ acc).
Proof. induction l as [|c l IH]; intros acc; cbn [fold_left flat_map]; [reflexivity|]. rewrite IH, <- app_assoc. rewrite !app_assoc. apply Permutation_app_tail. apply Permutation_app_comm. Qed.
Section Calls.
Context (n : nat) (rows : list (list Z)) (cones : list vcone) (T : nat -> vcone -> list vcone).
Context (Hn : n <> O) (LR : forall c, In c rows -> length c = S n) (BD : bounded n rows) (NE : cones <> []).
Context (TC : tangent_cones n rows cones) (TR : triangulates_cones n T cones).
Definition tri_of (cs : list vcone) : list vcone := fold_left (fun tri c => T n c ++ tri) cs [].
Lemma tri_perm cs : Permutation (tri_of cs) (flat_map (T n) cs).
Proof. unfold tri_of. rewrite (fold_perm (T n) cs []). now rewrite app_nil_r. Qed.
Lemma pieces_nonempty cs : cs <> [] -> triangulates_cones n T cs -> tri_of cs <> [].
Proof.
  intros N H E. destruct cs as [|c cs]; [contradiction|]. destruct (H c (vc_vertex c) (or_introl eq_refl)) as (_ & _ & H2 & _).
  assert (EC : mkVC (vc_vertex c) (vc_rays c) (vc_coef c) = c) by (now destruct c). rewrite EC in H2.
  destruct (proj1 (H2 (fun _ => 0%Q))) as (R & HR & _); [exists (fun _ => 0%Q); split; [intros; lra|intros; rewrite (sumq_ext _ _ (fun _ => 0%Q)) by (intros; ring); now rewrite sumq_0]|].
  pose proof (tri_perm (c :: cs)) as P. rewrite E in P. apply Permutation_nil in P. cbn [flat_map] in P. apply app_eq_nil in P as [P _]. rewrite P in HR. destruct HR.
Qed.
Lemma triangulate_from cs : triangulate_rays T (mkVal n (n + 1) cs None []) = mkVal n (n + 1) cs None (tri_of cs).
Proof. reflexivity. Qed.
Lemma triangulate_again cs : tri_of cs <> [] -> triangulate_rays T (mkVal n (n + 1) cs None (tri_of cs)) = mkVal n (n + 1) cs None (tri_of cs).
Proof. unfold triangulate_rays. cbn [pv_tri]. destruct (tri_of cs); [contradiction|reflexivity]. Qed.
(** The dilated object *)
Lemma dilate_ok : exists k cs, dilate (from_cones n cones) = Ok (k, mkVal n (n + 1) cs None []) /\ clears n rows k /\ cs <> [] /\
  tangent_cones n (map (dilate_row k) rows) cs /\ triangulates_cones n T cs /\ (forall c, In c cs -> big n 1 c = enumerator (vc_vertex c)).
Proof.
  assert (FV : Forall (fun c => vertex_ok n (vc_vertex c)) cones) by (apply Forall_forall; intros c Hc; apply point_ok; [exact Hn|apply (proj2 TC c Hc)]).
  destruct (factor_rays_ok n cones FV 1 ltac:(lia)) as (k & K1 & K2 & _ & K4). destruct (dilate_rays_ok n k cones K2 FV K4) as (cs & C1 & C2). exists k, cs.
  split; [|split; [|split; [|split; [|split]]]].
  - unfold dilate, from_cones. cbn [pv_vars pv_one pv_cones pv_cone pv_tri]. rewrite (proj2 (Nat.eqb_neq n (n + 1))) by lia. cbn [negb]. destruct cones as [|c0 cones0] eqn:EC; [contradiction|]. rewrite K1. cbn [bind]. rewrite C1. reflexivity.
  - split; [exact K2|]. intros v Hv i Hi. destruct (proj1 (proj2 (proj1 TC)) v Hv) as (w & Hw & E). apply in_map_iff in Hw as (c & <- & Hc).
    apply (In_nth _ _ c) in Hc as (j & Hj & Ej). pose proof (Forall2_nth _ _ _ c c C2 j Hj) as (_ & _ & _ & DC). rewrite Ej in DC. exists (num_at (vc_vertex (nth j cs c)) i). destruct (DC i Hi) as [_ ->]. rewrite (E i Hi). reflexivity.
  - intros E. rewrite E in C2. inversion C2. congruence.
  - assert (ST : forall i d, (i < length cones)%nat -> dilated_cone n k (nth i cones d) (nth i cs d)) by (intros i d Hi; apply (Forall2_nth _ _ _ d d C2 i Hi)).
    assert (LE : length cones = length cs) by exact (Forall2_length' _ _ _ C2).
    assert (SP : forall c c', dilated_cone n k c c' -> same_point n (CountProofs6.qscale k (coord (vc_vertex c))) (coord (vc_vertex c'))).
    { intros c c' (_ & _ & _ & DC) i Hi. destruct (DC i Hi) as [E1 E2]. unfold CountProofs6.qscale. rewrite <- E2. unfold coord. rewrite E1. field. }
    split.
    + apply (all_vertices_ext n _ (map (CountProofs6.qscale k) (map (fun c => coord (vc_vertex c)) cones))); [now rewrite !map_length| |apply dilate_vertices; [exact K2|apply TC]].
      rewrite !map_length. intros i Hi. set (d := mkVC (rv_zero 0) [] 0). rewrite map_map, (nth_map_in (fun c => CountProofs6.qscale k (coord (vc_vertex c))) cones i d origin Hi), (nth_map_in (fun c => coord (vc_vertex c)) cs i d origin ltac:(lia)). apply SP, ST, Hi.
    + intros c' Hc'. apply (In_nth _ _ c') in Hc' as (j & Hj & Ej). pose proof (ST j c' ltac:(lia)) as DC. rewrite Ej in DC. set (c := nth j cones c') in *. assert (Hc : In c cones) by (apply nth_In; lia). pose proof DC as (VO & ER & EC & DE).
      destruct (proj2 TC c Hc) as (RP & CO & TG). split; [|split; [congruence|]].
      * destruct VO as ((I1 & I2 & I3) & ID). unfold rational_point. unfold dim in *. split; [exact ID|]. split; [congruence|]. split; [exact I2|]. intros EV. destruct (I3 EV) as ((D1 & D2 & D3 & D4 & D5) & D6). unfold dim in *. rewrite ID in *. split; [exact D1|]. split; [apply D6; [exact I2|lia]|]. split; [exact D3|]. split; [exact D4|]. apply D5. lia.
      * intros x. pose proof (inject_pos k K2) as PK. pose proof (SP c c' DC) as SPc.
        transitivity (in_tangent_cone n rows (coord (vc_vertex c)) (fun i => x i / inject_Z k)%Q).
        { rewrite <- (tangent_dilate n k rows _ _ K2). split; apply tangent_ext; try (intros i Hi; unfold CountProofs6.qscale; field; lra); [intros i Hi; symmetry; apply SPc, Hi|exact SPc]. }
        rewrite TG, ER. split; intros (a & A1 & A2).
        { exists (fun j => inject_Z k * a j)%Q. split; [intros i Hi; apply Qmult_le_0_compat; [lra|auto]|]. intros i Hi. specialize (A2 i Hi). cbv beta in A2. rewrite <- (SPc i Hi). unfold CountProofs6.qscale. rewrite (sumq_ext _ _ (fun j => inject_Z k * (a j * inject_Z (vat (vc_rays c) j i)))%Q) by (intros; ring). rewrite sumq_scal, <- A2. field. lra. }
        { exists (fun j => a j / inject_Z k)%Q. split; [intros i Hi; unfold Qdiv; apply Qmult_le_0_compat; [auto|apply Qlt_le_weak, Qinv_lt_0_compat, PK]|]. intros i Hi. specialize (A2 i Hi). cbv beta in A2. rewrite <- (SPc i Hi) in A2. unfold CountProofs6.qscale in A2. rewrite (sumq_ext _ _ (fun j => / inject_Z k * (a j * inject_Z (vat (vc_rays c) j i)))%Q) by (intros; unfold Qdiv; ring). rewrite sumq_scal, <- A2. field. lra. }
  - intros c' v Hc'. destruct (In_nth _ _ c' Hc') as (j & Hj & Ej). pose proof (Forall2_length' _ _ _ C2) as LE. pose proof (Forall2_nth _ _ _ c' c' C2 j ltac:(lia)) as (_ & ER & EC & _). rewrite Ej in ER, EC. rewrite ER, EC. apply TR. apply nth_In. lia.
  - intros c' Hc'. destruct (In_nth _ _ c' Hc') as (j & Hj & Ej). pose proof (Forall2_length' _ _ _ C2) as LE. pose proof (Forall2_nth _ _ _ c' c' C2 j ltac:(lia)) as (VO & _ & _ & DC). rewrite Ej in VO, DC. destruct VO as (_ & ID). unfold dim in ID.
    apply nth_ext with (d := 0) (d' := 0); [now rewrite big_len|]. rewrite big_len. intros i Hi. unfold big. rewrite nth_map_seq by exact Hi. destruct (DC i Hi) as [-> _]. rewrite Z.mul_1_l, Z.div_1_r. reflexivity.
Qed.
(** ** Integration on the dilated polytope *)
Context (H : nat -> list Z -> Q) (HF : forall l m D, length l = n -> clears n rows D -> IntegralSpec.is_integral n (map (dilate_row D) rows) l m (inject_Z D ^ Z.of_nat (n + m) * H m l)%Q).
Definition split_value (k : Z) (co : rat) (out : list (bterm rat)) : Q :=
  (value co * H 0%nat (repeat 0%Z n) + qsum (fun t => value (t_coef t) * (inject_Z k ^ t_deg t * (H (Z.to_nat (t_deg t)) (t_exps t) / inject_Z (zfact (Z.to_nat (t_deg t)))))) out)%Q.
Lemma integrate_cones_ok k cs m co out fuel rs rs' : clears n rows k -> cs <> [] -> tangent_cones n (map (dilate_row k) rows) cs -> triangulates_cones n T cs -> (forall c, In c cs -> big n 1 c = enumerator (vc_vertex c)) -> split_form n k m co out ->
  (exists v st', integrate_dilated T fuel rs rs' Cones n k m co (mkVal n (n + 1) cs None []) = Ok (v, st') /\ lowest_terms v /\ (value v == split_value k co out)%Q) \/
  integrate_dilated T fuel rs rs' Cones n k m co (mkVal n (n + 1) cs None []) = Err OutOfFuel.
Proof.
  intros CL NC TC' TR' EN (MV & LC & MT & FO). set (rk := map (dilate_row k) rows) in *. pose proof (proj1 CL) as K0. pose proof (inject_pos k K0) as PK.
  assert (LR' : forall c, In c rk -> length c = S n) by (intros c Hc; apply in_map_iff in Hc as (r & <- & Hr); rewrite dilate_len; auto).
  assert (BD' : bounded n rk) by (apply bounded_dilate; assumption).
  assert (C1 : clears n rk 1).
  { split; [lia|]. intros v Hv i Hi. destruct (proj1 (proj2 (proj1 TC')) v Hv) as (w & Hw & E). apply in_map_iff in Hw as (c & <- & Hc). assert (CLk : clears n rows k) by exact CL.
    pose proof (cone_vertex n rk cs TC' c Hc) as VX. assert (Hv' : is_vertex n rows (fun i => v i / inject_Z k)%Q).
    { apply (dilate_vertex n k rows _ K0). apply (vertex_ext n _ v); [intros j _; unfold CountProofs6.qscale; field; lra|exact Hv]. }
    destruct (proj2 CL _ Hv' i Hi) as (z & Ez). exists z. rewrite <- Ez. change (inject_Z 1) with 1%Q. field. lra. }
  assert (R1 : forall r, map (dilate_row 1) r = r) by (intros r; rewrite <- (map_id r) at 2; apply map_ext; intros [|b a]; [reflexivity|]; cbn [dilate_row]; now rewrite Z.mul_1_l).
  assert (KN : k ^ Z.of_nat n <> 0) by (apply kpow_nz; lia). assert (KQ : forall j : nat, ~ (inject_Z k ^ Z.of_nat j == 0)%Q) by (intros j; apply Qpower_not_0; lra).
  assert (L01 : lowest_terms (mkRat 0 1)) by (split; cbn; lia || reflexivity).
  pose proof (pieces_nonempty cs NC TR') as NT. pose proof (tri_perm cs) as PT.
  unfold integrate_dilated. rewrite triangulate_from. set (st1 := mkVal n (n + 1) cs None (tri_of cs)).
  (* the forms *)
  assert (I : (exists v, integral_cones fuel rs st1 m = Ok v /\ lowest_terms v /\ (value v == inject_Z k ^ Z.of_nat n * qsum (fun t => value (t_coef t) * (inject_Z k ^ t_deg t * (H (Z.to_nat (t_deg t)) (t_exps t) / inject_Z (zfact (Z.to_nat (t_deg t)))))) out)%Q) \/ integral_cones fuel rs st1 m = Err OutOfFuel).
  { unfold integral_cones. destruct MT as [(M0 & ->)|(M1 & M2 & M3)].
    - rewrite M0. cbn [Nat.eqb]. left. exists (mkRat 0 1). split; [reflexivity|]. split; [exact L01|]. cbn [qsum]. change (value (mkRat 0 1)) with (0#1)%Q. ring.
    - destruct (Nat.eqb_spec (ms_terms m) 0); [contradiction|]. rewrite M2. cbn [bind]. subst st1. cbn [pv_vars pv_tri]. set (pcs := map (fun c => mkPcone (enumerator (vc_vertex c)) (vc_rays c)) (tri_of cs)).
      assert (EQ : bind (set_cones pcs) (fun r => lawrence_forms fuel n rs 0 (snd r) out (fst r) (mkRat 0 1)) = integral_lawrence fuel n rs pcs out) by (destruct out; [contradiction|reflexivity]). rewrite EQ.
      assert (TO : Forall (term_ok n) out). { eapply Forall_impl; [|exact FO]. cbv beta. intros t (((A1 & A2) & A3 & _) & A4). unfold term_ok. split; [lia|auto]. }
      assert (PP : Permutation (map PerturbProofs4.cone_of pcs) (cut n cs T 1)).
      { assert (E1 : map PerturbProofs4.cone_of pcs = map (fun c => (enumerator (vc_vertex c), vc_rays c)) (tri_of cs)) by (unfold pcs; rewrite map_map; reflexivity). rewrite E1, PT. unfold cut.
        assert (E2 : forall l, (forall c, In c l -> In c cs) -> map (fun c => (enumerator (vc_vertex c), vc_rays c)) (flat_map (T n) l) = flat_map (fun c => map (pair (big n 1 c)) (pieces n T vc_vertex c)) l).
        { induction l as [|c l IH]; intros Hl; [reflexivity|]. cbn [flat_map]. rewrite map_app. f_equal; [|apply IH; intros d Hd; apply Hl; now right]. pose proof (Hl c (or_introl eq_refl)) as Hc. unfold pieces. rewrite map_map. assert (EC : mkVC (vc_vertex c) (vc_rays c) (vc_coef c) = c) by (now destruct c). rewrite EC. apply map_ext_in. intros d Hd. destruct (piece_in n rk cs T Hn TC' TR' c d Hc Hd) as (-> & _). now rewrite EN by exact Hc. }
        rewrite (E2 cs (fun _ h => h)). reflexivity. }
      assert (NP : pcs <> []) by (unfold pcs; destruct (tri_of cs); [contradiction|discriminate]).
      assert (GC : good_cones n pcs).
      { split; [exact NP|]. apply Forall_forall. intros c Hc. unfold pcs in Hc. apply in_map_iff in Hc as (d & <- & Hd). apply (Permutation_in _ PT), in_flat_map in Hd as (c & Hc & Hd). destruct (piece_in n rk cs T Hn TC' TR' c d Hc Hd) as (_ & (_ & _ & A & B) & _). split; assumption. }
      destruct (lawrence_run fuel n rs pcs out Hn GC M3 TO) as [(ans & es & H1 & _)|(H1 & _)]; [left|right; exact H1]. exists ans. split; [exact H1|].
      unfold cut in PP. rewrite <- (conesD n rk cs T vc_vertex TC' 1 C1) in PP.
      destruct (polytope_run n (rowsD rk 1) (vsD n cs 1) (triD n cs T vc_vertex 1) Hn (rowsD_len n rk LR' 1) (rowsD_bounded n rk BD' 1 C1) (vsD_len n cs 1) (vsD_all n rk cs TC' 1 C1) (vsD_splits n rk cs T vc_vertex TC' TR' 1 C1) fuel rs pcs out ans PP NP M3 TO H1) as (Is & L1 & L2 & L3).
      split; [exact L1|]. rewrite L3. unfold rowsD in L2. rewrite R1 in L2. clear -L2 FO HF CL KQ Hn. rewrite sum_over_qsum. induction L2 as [|t I out Is HI L2 IH]; cbn [combine qsum fst snd]; [ring|]. rewrite IH by exact (Forall_inv_tail FO). rewrite Qmult_plus_distr_r. apply Qplus_comp; [|reflexivity].
      pose proof (Forall_inv FO) as F1. cbv beta in F1. destruct F1 as (((A1 & _) & _) & A4). pose proof (integral_unique n _ _ _ _ _ HI (HF (t_exps t) (Z.to_nat (t_deg t)) k A4 CL)) as E. rewrite E.
      set (d := Z.to_nat (t_deg t)) in *. replace (t_deg t) with (Z.of_nat d) by (unfold d; lia). rewrite Qpow_add. unfold Qdiv. ring. }
  destruct I as [(v & I1 & I2 & I3)|I1]; rewrite I1; cbn [bind]; [|now right].
  destruct (rat_add_ok (mkRat 0 1) v L01 I2) as [A1 A2].
  destruct (rat_eqb_z co 0) eqn:CZ; cbn [negb].
  - cbn [bind]. apply rat_eqb_zero in CZ; [|exact LC]. destruct (rat_div_z_ok _ _ A1 KN) as [B1 B2]. left. eexists _, _. split; [reflexivity|]. split; [exact B1|]. rewrite B2, A2, I3, inj_pow. unfold split_value. rewrite CZ. change (value (mkRat 0 1)) with (0#1)%Q. field. apply KQ.
  - unfold find_volume. unfold st1. rewrite (triangulate_again cs NT). cbn [pv_vars pv_tri].
    destruct (volume_run n rk cs T Hn LR' BD' TC' TR' (tri_of cs) fuel rs' PT) as [(w & W1 & W2 & W3)|(W1 & _)]; rewrite W1; cbn [bind fst snd]; [left|now right].
    destruct (rat_mul_ok w co W2 LC) as [M1 M2]. destruct (rat_add_ok _ _ A1 M1) as [S1 S2]. destruct (rat_div_z_ok _ _ S1 KN) as [B1 B2]. eexists _, _. split; [reflexivity|]. split; [exact B1|].
    assert (WV : (value w == inject_Z k ^ Z.of_nat n * H 0%nat (repeat 0%Z n))%Q).
    { pose proof (W3 1 (repeat 0%Z n) C1) as X. unfold rk in X. rewrite R1 in X. pose proof (integral_unique n _ _ _ _ _ X (HF (repeat 0%Z n) 0%nat k (repeat_length _ _) CL)) as E. rewrite Nat.add_0_r in E. rewrite <- E. change (inject_Z 1) with 1%Q. rewrite Qpower_1. ring. }
    rewrite B2, S2, A2, M2, I3, WV, inj_pow. unfold split_value. change (value (mkRat 0 1)) with (0#1)%Q. field. apply KQ.
Qed.
End Calls.
