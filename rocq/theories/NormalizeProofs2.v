(** Proofs about hilbert-from-rays: the recursion. *)
From Coq Require Import QArith Qround Lqa.
From Verif Require Import Common ZMat Hermite HermiteProofs Det DetProofs RatVec RatVecSpec RatVecProofs Util UtilProofs SmithSpec Piped PipedSpec PipedProofs PipedProofs2 PipedProofs3 PipedProofs4 P_Piped ConeSpec CountSpec TriangProofs Normalize NormalizeSpec NormalizeProofs.
Open Scope Z_scope.

Lemma cone_point_incl n t V x : incl t V -> cone_point n t x -> cone_point n V x.
Proof. intros I0 (L & H). split; [exact L|]. apply gen_iff in H as (l & Hl & E). apply gen_iff. exists l. split; [|exact E]. intros p Hp. destruct (Hl p Hp). auto. Qed.
Lemma rays_in_cone n V r : In r V -> length r = n -> cone_point n V r.
Proof.
  intros H L. split; [exact L|]. apply gen_iff. exists [(1%Q, r)]. split; [intros p [<-|[]]; cbn; split; [lra|exact H]|]. intros i Hi. unfold mix. cbn. ring.
Qed.
Lemma mapM_id ps : forall vs, mapM (mapM zz_to_int) ps = Ok vs -> vs = ps.
Proof.
  assert (IN : forall p v, mapM zz_to_int p = Ok v -> v = p).
  { induction p as [|z p IH]; intros v E; cbn [mapM] in E; [now injection E as <-|]. destruct (zz_to_int z) as [z'|] eqn:E1; [|discriminate E]. cbn [bind] in E. destruct (mapM zz_to_int p) as [p'|] eqn:E2; [|discriminate E]. cbn [bind] in E. injection E as <-. apply zz_to_int_safe in E1 as (-> & _). now rewrite (IH _ eq_refl). }
  induction ps as [|p ps IH]; intros vs E; cbn [mapM] in E; [now injection E as <-|]. destruct (mapM zz_to_int p) as [p'|] eqn:E1; [|discriminate E]. cbn [bind] in E. destruct (mapM (mapM zz_to_int) ps) as [ps'|] eqn:E2; [|discriminate E]. cbn [bind] in E. injection E as <-. apply IN in E1. subst. now rewrite (IH _ eq_refl).
Qed.
(* all lists of n of the rays *)
Fixpoint lists {A} (n : nat) (V : list A) : list (list A) := match n with O => [[]] | S m => flat_map (fun l => map (fun v => v :: l) V) (lists m V) end.
Lemma lists_in {A} (V : list A) : forall n t, length t = n -> incl t V -> In t (lists n V).
Proof.
  induction n as [|n IH]; intros t L I0; cbn [lists]; [destruct t; [now left|discriminate L]|]. destruct t as [|a t]; [discriminate L|]. apply in_flat_map. exists t. split; [apply IH; [cbn in L; lia|intros y Hy; apply I0; now right]|]. apply in_map_iff. exists a. split; [reflexivity|apply I0; now left].
Qed.
Lemma uniform {A} (Pr : A -> nat -> Prop) (L : list A) : (forall t, In t L -> exists F, forall f, (F <= f)%nat -> Pr t f) -> exists F, forall f, (F <= f)%nat -> forall t, In t L -> Pr t f.
Proof.
  induction L as [|a L IH]; intros H; [exists O; intros f _ t []|]. destruct (H a (or_introl eq_refl)) as (F1 & H1). destruct (IH (fun t Ht => H t (or_intror Ht))) as (F2 & H2). exists (Nat.max F1 F2). intros f Hf t [<-|Ht]; [apply H1; lia|apply H2; [lia|exact Ht]].
Qed.
(* points f lists the parallelepipeds of n of the rays *)
Definition lists_points (f : nat) (xg : Z -> Z -> Z * Z * Z) (n : nat) (V : list (list Z)) : Prop :=
  forall t c, incl t V -> n_vectors n t -> det_and_facets n t = Ok c ->
  (int_max < Z.abs (s_det c) /\ points f xg n c (rv_zero n) = Err Exited) \/
  exists ps, points f xg n c (rv_zero n) = Ok ps /\ (forall x, In x ps <-> in_parallelepiped n (rv_zero n) t x) /\ Z.of_nat (length ps) = Z.abs (s_det c).
Lemma ok_indep n t c : det_and_facets n t = Ok c -> lin_indep n t /\ s_det c = det n (ent t).
Proof.
  intros E. unfold det_and_facets in E. destruct (negb _) eqn:E0; [discriminate E|]. cbv zeta in E. destruct (det n (ent t) =? 0) eqn:E1; [discriminate E|]. apply Z.eqb_neq in E1. split; [now apply det_indep|]. destruct (cancel_facets _ _ _) as [((fs, dual), qs)|]; [|discriminate E]. cbn [bind] in E. now injection E as <-.
Qed.
Lemma enough_fuel xg n V : xgcd_contract xg -> (0 < n)%nat -> exists F, forall f, (F <= f)%nat -> lists_points f xg n V.
Proof.
  intros XG Hn.
  destruct (uniform (fun t f => forall c, n_vectors n t -> det_and_facets n t = Ok c ->
    (int_max < Z.abs (s_det c) /\ points f xg n c (rv_zero n) = Err Exited) \/
    exists ps, points f xg n c (rv_zero n) = Ok ps /\ (forall x, In x ps <-> in_parallelepiped n (rv_zero n) t x) /\ Z.of_nat (length ps) = Z.abs (s_det c)) (lists n V)) as (F & H).
  - intros t _. destruct (det_and_facets n t) as [c|] eqn:E; [|exists O; intros f _ c NV X; discriminate X]. destruct (ok_indep n t c E) as (LI & _).
    destruct (Nat.eq_dec (length t) n) as [Lt|Lt]; [|exists O; intros f _ c0 (N & _); contradiction].
    destruct (Forall_dec (fun r => length r = n) (fun r => Nat.eq_dec (length r) n) t) as [Ft|Ft]; [|exists O; intros f _ c0 (_ & N); contradiction].
    assert (RZ : exists Pz k, (Pz = nonzero \/ Pz = positive) /\ reachable Pz k (rv_zero n)). { exists positive, (CZero n). split; [now right|]. split; [cbn; unfold positive; lia|]. exists (rv_zero n), []. split; [reflexivity|]. split; [constructor|reflexivity]. }
    assert (DZ : dim (rv_zero n) = n) by (unfold dim, rv_zero; cbn; now rewrite repeat_length).
    destruct (parallelepiped_points_exact xg n t c (rv_zero n) XG Hn (conj Lt Ft) LI E RZ DZ) as (F & [(B & H)|(ps & H & _ & HI & HL)]).
    + exists F. intros f Hf c0 _ E0. injection E0 as <-. left. split; [exact B|now apply H].
    + exists F. intros f Hf c0 _ E0. injection E0 as <-. right. exists ps. split; [now apply H|split; assumption].
  - exists F. intros f Hf t c I0 NV E. apply (H f Hf t); [apply lists_in; [apply NV|exact I0]|exact NV|exact E].
Qed.

Section Normalize.
Context (P : nparams) (V : list (list Z)).
Let n := z_dim P.
Hypothesis Hn : (0 < n)%nat.
Hypothesis Fv : Forall (fun r => length r = n) V.
Hypothesis XG : xgcd_contract (z_xg P).
Hypothesis LP : lists_points (z_fuel P) (z_xg P) n V.
Hypothesis HZ : zsolve_contract n V (z_zsolve P).
Hypothesis HT : cover_contract n V (z_triang P).

Lemma rays_length t : incl t V -> Forall (fun r => length r = n) t.
Proof. intros I0. apply Forall_forall. intros r Hr. rewrite Forall_forall in Fv. auto. Qed.
Lemma unit_cone t c x : incl t V -> n_vectors n t -> det_and_facets n t = Ok c -> Z.abs (s_det c) = 1 -> cone_point n t x -> forall G, incl t G -> sum_of n G x.
Proof.
  intros I0 NV E D1 Hx G IG. destruct (split_point n t x NV Hx) as (p & Hp & S0). apply S0; [exact IG|]. destruct (LP t c I0 NV E) as [(B & _)|(ps & _ & HI & HL)]; [unfold int_max in B; lia|].
  assert (Z0 : in_parallelepiped n (rv_zero n) t (repeat 0 n)).
  { split; [apply repeat_length|]. exists (fun _ => 0%Q). split; [intros k _; split; lra|]. intros i Hi. rewrite nth_repeat, (coord_zero n i). rewrite (sumq_ext n _ (fun _ => 0%Q)) by (intros k Hk; ring). rewrite sumq_0. reflexivity. }
  apply HI in Z0. apply HI in Hp as Hp'. rewrite D1 in HL. destruct ps as [|q [|q' ps]]; try (cbn in HL; lia). destruct Z0 as [Z0|[]]. destruct Hp' as [Hp'|[]]. assert (EP : p = repeat 0 n) by congruence. rewrite EP. apply no_summand; [apply repeat_length|]. intros i Hi. apply nth_repeat.
Qed.
Definition good_state (st : list (list Z) * nat) : Prop := NoDup (fst st) /\ forall v, In v (fst st) -> cone_point n V v.
Definition covered (t : list (list Z)) (known : list (list Z)) : Prop := forall x, cone_point n t x -> sum_of n (V ++ known) x.
Definition step_ok (t : list (list Z)) (st st' : list (list Z) * nat) : Prop := good_state st' /\ incl (fst st) (fst st') /\ covered t (fst st').
Lemma covered_more t A B : incl A B -> covered t A -> covered t B.
Proof. intros I0 H x Hx. apply sum_more with (G := V ++ A); [apply incl_app; [apply incl_appl, incl_refl|apply incl_appr, I0]|apply H, Hx]. Qed.
Lemma insert_good known hs k k' : good_state (known, k) -> (forall h, In h hs -> cone_point n V h) -> good_state (fold_left insert hs known, k') /\ incl known (fold_left insert hs known) /\ incl hs (fold_left insert hs known).
Proof.
  intros (N & H) Hh. split; [|split; intros x Hx; apply insert_all_in; auto]. split; cbn [fst] in *; [now apply insert_all_nodup|]. intros v Hv. apply insert_all_in in Hv as [Hv|Hv]; auto.
Qed.
Lemma handle_ok : forall fuel t st st', incl t V -> good_state st -> handle fuel P t st = Ok st' -> step_ok t st st'.
Proof.
  induction fuel as [|f IH]; intros t st st' I0 G E; [discriminate E|]. cbn [handle] in E. fold n in E. destruct t as [|r t0]; [discriminate E|]. set (t := r :: t0) in *.
  assert (SUB : forall s1 s2, good_state s1 -> bind (z_triang P (snd s1) t) (fun cs => (fix each (cs : list (list (list Z))) st := match cs with [] => Ok st | c :: cs' => bind (handle f P c st) (each cs') end) cs (fst s1, S (snd s1))) = Ok s2 -> step_ok t s1 s2).
  { intros s1 s2 G1 E2. destruct (z_triang P (snd s1) t) as [cs|] eqn:ET; [|discriminate E2]. cbn [bind] in E2. destruct (HT _ _ _ I0 ET) as (HI & HC).
    assert (EA : forall cs s, (forall c, In c cs -> incl c t) -> good_state s -> forall s', (fix each (cs : list (list (list Z))) st := match cs with [] => Ok st | c :: cs' => bind (handle f P c st) (each cs') end) cs s = Ok s' -> good_state s' /\ incl (fst s) (fst s') /\ forall c, In c cs -> covered c (fst s')).
    { clear -IH I0. induction cs as [|c cs IHc]; intros s HI Gs s' Es; [injection Es as <-; split; [exact Gs|split; [apply incl_refl|intros c []]]|]. destruct (handle f P c s) as [s1|] eqn:E1; [|discriminate Es]. cbn [bind] in Es.
      destruct (IH c s s1 (incl_tran (HI c (or_introl eq_refl)) I0) Gs E1) as (G1 & I1 & C1). destruct (IHc s1 (fun d Hd => HI d (or_intror Hd)) G1 s' Es) as (G2 & I2 & C2). split; [exact G2|]. split; [eapply incl_tran; eassumption|]. intros d [<-|Hd]; [eapply covered_more; eassumption|auto]. }
    destruct (EA cs (fst s1, S (snd s1)) HI G1 s2 E2) as (G2 & I2 & C2). split; [exact G2|]. split; [exact I2|]. intros x Hx. destruct (HC x Hx) as (c & Hc & Hxc). apply (C2 c Hc x Hxc). }
  destruct ((length t =? n)%nat && unimodular n t)%bool eqn:EU.
  { injection E as <-. apply andb_prop in EU as (E1 & E2). apply Nat.eqb_eq in E1. unfold unimodular in E2. apply Z.eqb_eq in E2. assert (NV : n_vectors n t) by (split; [exact E1|now apply rays_length]).
    destruct (facets_dual_to_rays n t NV ltac:(apply det_indep; lia)) as (c & EC & _). split; [exact G|]. split; [apply incl_refl|]. intros x Hx. apply (unit_cone t c x I0 NV EC); [destruct (ok_indep n t c EC) as (_ & ->); exact E2|exact Hx|]. apply incl_appl, I0. }
  destruct (dualized P t) as [((c, facets), equations)|] eqn:ED; [|discriminate E]. cbn [bind] in E. unfold dualized in ED. fold n in ED.
  destruct (length t =? n)%nat eqn:EL.
  - apply Nat.eqb_eq in EL. assert (NV : n_vectors n t) by (split; [exact EL|now apply rays_length]). destruct (det_and_facets n t) as [c0|] eqn:EC; [|discriminate ED]. cbn [bind] in ED. injection ED as -> <- <-.
    destruct (Z.abs (s_det c) =? 1) eqn:E1.
    { apply Z.eqb_eq in E1. injection E as <-. split; [exact G|]. split; [apply incl_refl|]. intros x Hx. apply (unit_cone t c x I0 NV EC E1 Hx). apply incl_appl, I0. }
    cbn [andb] in E. destruct (Z.abs (s_det c) <? z_max_det P) eqn:E2.
    { destruct (enumerate P c (fst st)) as [known|] eqn:EE; [|discriminate E]. cbn [bind] in E. injection E as <-. unfold enumerate in EE. fold n in EE.
      destruct (points (z_fuel P) (z_xg P) n c (rv_zero n)) as [ps|] eqn:EP; [|discriminate EE]. cbn [bind] in EE. destruct (mapM (mapM zz_to_int) ps) as [vs|] eqn:EM; [|discriminate EE]. cbn [bind] in EE. injection EE as <-. apply mapM_id in EM. subst vs.
      destruct (LP t c I0 NV EC) as [(_ & B)|(ps' & EP' & HI & _)]; [rewrite EP in B; discriminate B|]. rewrite EP in EP'. injection EP' as <-.
      destruct (insert_good (fst st) ps (snd st) (snd st)) as (G2 & I2 & I3); [now destruct st|intros h Hh; apply (cone_point_incl n t V h I0), in_par_cone; [exact NV|now apply HI]|].
      split; [exact G2|]. split; [exact I2|]. intros x Hx. cbn [fst]. destruct (split_point n t x NV Hx) as (p & Hp & S0). apply S0; [apply incl_appl, I0|]. apply HI in Hp as Hin.
      apply one_more with (x := repeat 0 n) (g := p); [apply no_summand; [apply repeat_length|intros i Hi; apply nth_repeat]|apply in_or_app; right; apply I3, Hin|apply Hp|]. intros i Hi. rewrite nth_repeat. lia. }
    destruct (Z.of_nat (length (s_facets c)) <? z_max_facets P); [|now apply SUB].
    destruct (z_zsolve P (snd st) t) as [[homs|]|] eqn:EZ; [| |discriminate E]; cbn [bind] in E.
    + destruct (_ <? _) in E; [discriminate E|]. injection E as <-. destruct (HZ _ _ _ I0 EZ) as (H1 & H2). destruct (insert_good (fst st) homs (snd st) (S (snd st))) as (G2 & I2 & I3); [now destruct st|intros h Hh; apply (cone_point_incl n t V h I0); auto|].
      split; [exact G2|]. split; [exact I2|]. intros x Hx. apply sum_more with (G := homs); [apply incl_appr, I3|auto].
    + specialize (SUB (fst st, S (snd st)) st' G E). exact SUB.
  - injection ED as <- <- <-. cbn [s_det] in E. change (Z.abs 0 =? 1) with false in E. cbn [andb] in E.
    destruct (z_facets P t <? z_max_facets P); [|now apply SUB].
    destruct (z_zsolve P (snd st) t) as [[homs|]|] eqn:EZ; [| |discriminate E]; cbn [bind] in E.
    + destruct (_ <? _) in E; [discriminate E|]. injection E as <-. destruct (HZ _ _ _ I0 EZ) as (H1 & H2). destruct (insert_good (fst st) homs (snd st) (S (snd st))) as (G2 & I2 & I3); [now destruct st|intros h Hh; apply (cone_point_incl n t V h I0); auto|].
      split; [exact G2|]. split; [exact I2|]. intros x Hx. apply sum_more with (G := homs); [apply incl_appr, I3|auto].
    + specialize (SUB (fst st, S (snd st)) st' G E). exact SUB.
Qed.
Lemma handle_all_ok fuel : forall cs st st', (forall c, In c cs -> incl c V) -> good_state st -> handle_all fuel P cs st = Ok st' -> good_state st' /\ incl (fst st) (fst st') /\ forall c, In c cs -> covered c (fst st').
Proof.
  induction cs as [|c cs IHc]; intros st st' HI G E; cbn [handle_all] in E; [injection E as <-; split; [exact G|split; [apply incl_refl|intros c []]]|]. destruct (handle fuel P c st) as [s1|] eqn:E1; [|discriminate E]. cbn [bind] in E.
  destruct (handle_ok fuel c st s1 (HI c (or_introl eq_refl)) G E1) as (G1 & I1 & C1). destruct (IHc s1 st' (fun d Hd => HI d (or_intror Hd)) G1 E) as (G2 & I2 & C2). split; [exact G2|]. split; [eapply incl_tran; eassumption|]. intros d [<-|Hd]; [eapply covered_more; eassumption|auto].
Qed.
Lemma hilbert_ok fuel known : hilbert_from_rays fuel P V = Ok known -> NoDup known /\ (forall v, In v known -> cone_point n V v) /\ forall x, cone_point n V x -> sum_of n (V ++ known) x.
Proof.
  intros E. unfold hilbert_from_rays in E.
  assert (CS : exists cs, (if z_initial P then z_triang P 0 V else Ok [V]) = Ok cs /\ (forall c, In c cs -> incl c V) /\ forall x, cone_point n V x -> exists c, In c cs /\ cone_point n c x).
  { destruct (z_initial P).
    - destruct (z_triang P 0 V) as [cs|] eqn:ET; [|discriminate E]. exists cs. split; [reflexivity|]. exact (HT _ _ _ (incl_refl V) ET).
    - exists [V]. split; [reflexivity|]. split; [intros c [<-|[]]; apply incl_refl|]. intros x Hx. exists V. split; [now left|exact Hx]. }
  destruct CS as (cs & EC & HI & HC). rewrite EC in E. cbn [bind] in E. destruct (handle_all fuel P cs ([], 1%nat)) as [st|] eqn:EH; [|discriminate E]. cbn [bind] in E. injection E as <-.
  destruct (handle_all_ok fuel cs ([], 1%nat) st HI) as ((N & G) & _ & C); [split; [constructor|intros v []]|exact EH|]. split; [exact N|]. split; [exact G|]. intros x Hx. destruct (HC x Hx) as (c & Hc & Hxc). exact (C c Hc x Hxc).
Qed.
End Normalize.
