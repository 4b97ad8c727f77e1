(** The decomposition handed to SolveIP. *)
From Coq Require Import QArith Permutation.
From Verif Require Import Common SmithSpec ZMat Hermite Det DetProofs RatVec RatVecSpec RatVecProofs Piped PipedSpec PipedProofs PipedProofs4 ConeSpec Irrational IrrationalProofs3 Exponential ExpSpec ExpProofs3 CountSpec Barvinok BarvinokSpec BarvinokProofs4 BrionLinear BrionProofs BrionProofs2 BrionProofs3 EulerProofs BrionProofs4 BrionProofs5 Count CountProofs CountProofs2 CountProofs3 CountProofs4 CountProofs5 CountProofs6 DigHeap Dig DigSpec DigMain.
Open Scope Z_scope.

Definition one_upd (x : xitem) (a b : list dcone) : Prop := let '(w, v, d, pts) := x in exists p, pts = [p] /\ b = mkDcone (b_coef d) (s_rays (b_cone d)) p :: a.
Definition first_of (x : xitem) : dcone := let '(w, v, d, pts) := x in mkDcone (b_coef d) (s_rays (b_cone d)) (hd [] pts).
Lemma one_chain xs : forall a b, chain one_upd xs a b -> b = rev (map first_of xs) ++ a /\ Forall (fun x : xitem => exists p, snd x = [p]) xs.
Proof.
  intros a b H. induction H as [a|[[[w v] d] pts] l a b c (p & -> & ->) H (IH1 & IH2)]; [split; [reflexivity|constructor]|]. split.
  - rewrite IH1. cbn [map rev first_of hd]. rewrite <- app_assoc. reflexivity.
  - constructor; [exists p; reflexivity|exact IH2].
Qed.
Lemma lsum_rev l : lsum (rev l) = lsum l.
Proof. induction l as [|x l IH]; [reflexivity|]. cbn [rev]. rewrite lsum_app, IH, !lsum_cons. cbn [lsum fold_right]. lia. Qed.
Section Main.
Context (P : params) (n : nat) (rows : list (list Z)) (cones : list vcone) (vs : list (nat -> Q)) (pts0 : list (list Z)).
Context (Hn : (0 < n)%nat) (KC : relation_contract (q_ker P)) (OC : omega_contract (q_omega P)) (PC : q_mode P = DualDecomposition -> primitive_choice (q_omega P)) (XG : xgcd_contract (q_xg P)).
Context (SV : q_sv P = LatteLLL) (MD : q_max_det P = 1) (DM : q_mode P = DualDecomposition) (DE : decreasing n (q_omega P)).
Context (HC : forall c, In c cones -> usable n (fst (fst c)) /\ triangulates n (snd (fst c)) (q_tri P (snd (fst c)))).
Context (AV : all_vertices n rows vs) (IP : integer_points n rows pts0).
Context (HT : forall x, length x = n -> lsum (map (fun c : vcone => hfun n (q_mode P) (fst (fst c)) (snd (fst c)) x) cones) = lsum (map (fun v => Tind n rows v x) vs)).
Lemma small_det d : cone_ok n (b_cone d) -> small P d -> Z.abs (s_det (b_cone d)) = 1 /\ (b_coef d = 1 \/ b_coef d = -1).
Proof.
  intros OK (C & [H|[H|H]]); rewrite ?MD, ?SV in H; try discriminate H; try lia. destruct OK as ((LR & FR) & ED & D0 & _). split; [|lia]. assert (s_det (b_cone d) <> 0) by assumption. lia.
Qed.
Lemma cones_collected : exists N, (forall r, In r N -> length r = n /\ exists k, (k < n)%nat /\ nth k r 0 <> 0) /\ exists F1, forall f1, (F1 <= f1)%nat -> exists F2, forall f2, (F2 <= f2)%nat ->
  exists ds, cones_loop (fueled P f1 f2) n (fun _ => 1) (collect (fueled P f1 f2) n) cones [] = Ok (Some ds) /\ decomposes n ds pts0 /\ (forall c r, In c ds -> In r (dc_rays c) -> In r N) /\ forall c, In c ds -> length (dc_rays c) = n.
Proof.
  assert (Hmax : 0 <= q_max_det P) by lia. assert (HC' : forall c, In c cones -> usable n (fst (fst c)) /\ forall t, In t (q_tri P (snd (fst c))) -> n_vectors n t /\ lin_indep n t) by (intros c Hc; split; [apply (HC c Hc)|apply (HC c Hc)]).
  destruct (items_stable P n cones Hn KC OC PC HC') as (F & HF). pose proof (fun f w v d => items_usable P n cones Hn KC OC PC HC' f w v d) as IU.
  exists (flat_map (fun i => s_rays (b_cone (snd i))) (all_items P n cones F)). split.
  { intros r Hr. apply in_flat_map in Hr as ([[w v] d] & Hi & Hr). destruct (IU F w v d Hi) as [_ [OK _]]. cbn [snd] in Hr. pose proof OK as ((LR & FR) & ED & D0 & _). rewrite Forall_forall in FR. split; [auto|].
    destruct (existsb (fun k => negb (nth k r 0 =? 0)) (seq 0 n)) eqn:EX.
    - apply existsb_exists in EX as (k & Hk & Ek). apply in_seq in Hk. exists k. split; [lia|]. now apply Bool.negb_true_iff, Z.eqb_neq in Ek.
    - exfalso. apply (In_nth _ _ []) in Hr as (i & Hi' & Ei). rewrite LR in Hi'. assert (LI : lin_indep n (s_rays (b_cone d))) by (apply det_indep; now rewrite <- ED).
      pose proof (LI (fun k => if Nat.eqb k i then 1 else 0)) as L0. assert (L1 : (if Nat.eqb i i then 1 else 0) = 0); [|rewrite Nat.eqb_refl in L1; discriminate]. apply L0; [|exact Hi']. intros j Hj. rewrite sumz_zsum, (zsum_single n _ i Hi') by (intros k Hk NE; rewrite (proj2 (Nat.eqb_neq k i) NE); ring). rewrite Nat.eqb_refl, Z.mul_1_l. unfold vat. rewrite Ei.
      destruct (Z.eq_dec (nth j r 0) 0) as [E0|N0]; [exact E0|]. assert (X : existsb (fun k => negb (nth k r 0 =? 0)) (seq 0 n) = true); [|congruence]. apply existsb_exists. exists j. split; [apply in_seq; lia|]. now apply Bool.negb_true_iff, Z.eqb_neq. }
  destruct (all_fuel (fun ct f => forall f2, enough (fueled P f f2) n (fun _ => 1) (fst ct) (snd ct)) (flat_map (fun c : vcone => map (fun t => (fst (fst c), t)) (q_tri P (snd (fst c)))) cones)) as (F1 & HF1).
  { intros [v t] Hx. apply in_flat_map in Hx as (c & Hc & Hx). apply in_map_iff in Hx as (t' & E & Ht). injection E as <- ->. destruct (HC' c Hc) as [UV HT']. destruct (HT' t Ht) as [NV LI]. cbn [fst snd].
    destruct (enough_fuel P n (fun _ => 1) Hn KC OC PC Hmax (fst (fst c)) t UV NV LI) as (F0 & H0). exists F0. intros f Hf f2. exact (H0 f Hf). }
  exists (Nat.max F F1). intros f1 Hf1. set (its := all_items P n cones f1).
  destruct (all_fuel (fun i f2 => let '(w, v, d) := i in small P d -> exists pts, exact_points n (w, v, d, pts) /\ forall acc, exists acc', collect (fueled P f1 f2) n w v d acc = Ok (Some acc') /\ one_upd (w, v, d, pts) acc acc') its) as (F2 & HF2).
  { intros [[w v] d] Hi. destruct (IU f1 w v d Hi) as [[RV Dv] [OK _]]. destruct (points_exact (q_xg P) n (b_cone d) v XG Hn OK RV Dv) as (f0 & [(B & _)|(ps & E & ND & IN & Len)]).
    - exists 0%nat. intros f2 _ Sm. exfalso. destruct (small_det d OK Sm) as (D1 & _). unfold int_max in B. lia.
    - exists f0. intros f2 Hf2 Sm. destruct (small_det d OK Sm) as (D1 & _). exists ps. split; [exact (conj (conj RV Dv) (conj OK (conj ND IN)))|]. intros acc. unfold collect. cbn [fueled q_fuel2 q_xg]. rewrite (E f2 Hf2). cbn [bind]. destruct ps as [|p [|q ps]]; cbn [length] in Len; try lia. eexists. split; [reflexivity|]. exists p. split; reflexivity. }
  exists F2. intros f2 Hf2. specialize (HF1 f1 ltac:(lia)). specialize (HF2 f2 Hf2).
  assert (HFF : forall w v d, In (w, v, d) its -> small (fueled P f1 f2) d ->
    1 = -1 /\ (forall acc, collect (fueled P f1 f2) n w v d acc = Ok None) \/
    int_max < Z.abs (s_det (b_cone d)) /\ (forall acc, collect (fueled P f1 f2) n w v d acc = Err Exited) \/
    1 <> -1 /\ exists pts, exact_points n (w, v, d, pts) /\ forall acc, True -> exists acc', collect (fueled P f1 f2) n w v d acc = Ok (Some acc') /\ (Z.abs (b_coef d) = 1) /\ one_upd (w, v, d, pts) acc acc').
  { intros w v d Hi Sm. right. right. split; [discriminate|]. destruct (HF2 (w, v, d) Hi Sm) as (pts & EX & H). exists pts. split; [exact EX|]. intros acc _. destruct (H acc) as (acc' & E & U). exists acc'. split; [exact E|]. split; [apply Sm|exact U]. }
  set (U := fun (x : xitem) a b => (Z.abs (b_coef (snd (fst x))) = 1 /\ In (fst x) its) /\ one_upd x a b).
  assert (HF3 : forall w v d, In (w, v, d) its -> small (fueled P f1 f2) d ->
    1 = -1 /\ (forall acc, collect (fueled P f1 f2) n w v d acc = Ok None) \/
    int_max < Z.abs (s_det (b_cone d)) /\ (forall acc, collect (fueled P f1 f2) n w v d acc = Err Exited) \/
    1 <> -1 /\ exists pts, exact_points n (w, v, d, pts) /\ forall acc, True -> exists acc', collect (fueled P f1 f2) n w v d acc = Ok (Some acc') /\ True /\ U (w, v, d, pts) acc acc').
  { intros w v d Hi Sm. destruct (HFF w v d Hi Sm) as [H|[H|(H1 & pts & EX & H)]]; [left; exact H|right; left; exact H|right; right]. split; [exact H1|]. exists pts. split; [exact EX|]. intros acc _. destruct (H acc Logic.I) as (acc' & E & C & O). exists acc'. split; [exact E|]. split; [exact Logic.I|]. split; [split; [exact C|exact Hi]|exact O]. }
  assert (HCC : forall v R w t, In (v, R, w) cones -> usable n v /\ (In t (q_tri (fueled P f1 f2) R) -> n_vectors n t /\ lin_indep n t /\ enough (fueled P f1 f2) n (fun _ => 1) v t /\ forall v' d, In (v', d) (piece_all (q_fuel (fueled P f1 f2)) (fueled P f1 f2) n v t) -> In (w, v', d) its)).
  { intros v R w t Hc. destruct (HC' (v, R, w) Hc) as [UV HT']. split; [exact UV|]. cbn [fueled q_tri fst snd] in *. intros Ht. destruct (HT' t Ht) as [NV LI]. split; [exact NV|]. split; [exact LI|]. split.
    - apply (HF1 (v, t)). apply in_flat_map. exists (v, R, w). split; [exact Hc|]. cbn [fst snd]. apply in_map_iff. exists t. auto.
    - intros v' d Hd. unfold its, all_items. apply in_flat_map. exists (v, R, w). split; [exact Hc|]. cbn [fst snd]. apply in_flat_map. exists t. split; [exact Ht|]. apply in_map_iff. exists (v', d). split; [reflexivity|exact Hd]. }
  pose proof (cones_ok (list dcone) (fueled P f1 f2) n (fun _ => 1) (collect (fueled P f1 f2) n) (fun _ => True) U its HF3 Hn PC cones HCC [] Logic.I) as CK.
  destruct (cones_loop (fueled P f1 f2) n (fun _ => 1) (collect (fueled P f1 f2) n) cones []) as [[ds|]|e].
  - destruct CK as (_ & pss & xs & CP & M & _ & EX & CH). exists ds. split; [reflexivity|].
    assert (CH1 : chain one_upd xs [] ds /\ Forall (fun x : xitem => Z.abs (b_coef (snd (fst x))) = 1 /\ In (fst x) its) xs).
    { clear -CH. induction CH as [a|x l a b c (C & O) H (IH1 & IH2)]; [split; constructor|]. split; [econstructor; eassumption|constructor; assumption]. }
    destruct CH1 as (CH1 & CO). destruct (one_chain xs _ _ CH1) as (Eds & S1). rewrite app_nil_r in Eds.
    assert (IM : forall c, In c ds -> exists x, In x xs /\ c = first_of x) by (intros c Hc; rewrite Eds, <- in_rev in Hc; apply in_map_iff in Hc as (x & <- & Hx); exists x; auto).
    rewrite Forall_forall in CO, S1, EX. set (sh := fun _ : list Z => repeat 0 n).
    assert (FO : forall x, In x xs -> (dc_coef (first_of x) = 1 \/ dc_coef (first_of x) = -1) /\ length (dc_rays (first_of x)) = n /\ (forall r, In r (dc_rays (first_of x)) -> length r = n) /\ length (dc_point (first_of x)) = n /\ gcone_of sh x = (dc_coef (first_of x), dc_rays (first_of x), [dc_point (first_of x)])).
    { intros [[[w v] d] pts] Hx. destruct (CO _ Hx) as (C & _). destruct (S1 _ Hx) as (p & Ep). destruct (EX _ Hx) as (_ & OK & _ & HP). cbn [fst snd first_of dc_coef dc_rays dc_point gcone_of] in *. subst pts. cbn [hd map]. destruct OK as ((LR & FR) & _). rewrite Forall_forall in FR. destruct (proj1 (HP p) (or_introl eq_refl)) as (Lp & _).
      split; [lia|]. split; [exact LR|]. split; [exact FR|]. split; [exact Lp|]. unfold sh. rewrite (vadd_zero n p Lp). reflexivity. }
    split; [|split].
    + split.
      * intros c Hc. destruct (IM c Hc) as (x & Hx & ->). destruct (FO x Hx) as (H1 & H2 & H3 & H4 & _). split; [exact H1|]. split; [lia|]. split; [exact H3|exact H4].
      * assert (EG : map (fun c => (dc_coef c, dc_rays c, [dc_point c])) ds = map (gcone_of sh) (rev xs)).
        { rewrite Eds, <- map_rev, map_map. apply map_ext_in. intros x Hx. rewrite <- in_rev in Hx. symmetry. apply (FO x Hx). }
        rewrite EG. apply (items_generate n sh (rev xs) pts0).
        -- apply Forall_forall. intros x Hx. rewrite <- in_rev in Hx. apply EX, Hx.
        -- intros x _. apply repeat_length.
        -- apply (points_len n rows), IP.
        -- assert (LS : forall w, length (sh w) = n) by (intros w; apply repeat_length).
           assert (OKI : forall i, In i (flat_map (fun cp => flat_map (items_of (snd (fst cp))) (snd cp)) (List.combine cones pss)) -> cone_ok n (b_cone (snd i))).
           { intros i Hi. rewrite <- M in Hi. apply in_map_iff in Hi as ([[[w v] d] pts] & <- & Hx). destruct (EX _ Hx) as (_ & OK & _). exact OK. }
           pose proof (cones_sum n sh P cones pss (fun c Hc => conj (proj2 (HC c Hc)) (LS _)) CP OKI) as CS.
           refine (negl_ext n _ _ _ (negl_add n _ _ (brion_points n rows vs pts0 AV IP) (negl_scale n (-1) _ CS))). intros x Hx. cbv beta.
           assert (EI : itot n sh (map fst (rev xs)) x = itot n sh (map fst xs) x) by (rewrite map_rev; unfold itot; rewrite map_rev; apply lsum_rev).
           rewrite EI, M. rewrite <- (HT x Hx). unfold sh at 2. rewrite (lsum_ext (fun c : vcone => hfun n (q_mode P) (fst (fst c)) (snd (fst c)) (vsub x (repeat 0 n))) (fun c : vcone => hfun n (q_mode P) (fst (fst c)) (snd (fst c)) x)) by (intros c _; now rewrite (vsub_zero n x Hx)). lia.
    + intros c r Hc Hr. destruct (IM c Hc) as (x & Hx & ->). destruct (CO x Hx) as (_ & Ii). unfold its in Ii. rewrite (HF f1) in Ii by lia. apply in_flat_map. exists (fst x). split; [exact Ii|]. destruct x as [[[w v] d] pts]. exact Hr.
    + intros c Hc. destruct (IM c Hc) as (x & Hx & ->). apply (FO x Hx).
  - exfalso. destruct CK as (w & v & d & _ & H). discriminate H.
  - exfalso. destruct CK as [[_ H]|[[_ [H|[H|H]]]|[_ [_ H]]]]; cbn [fueled q_sv q_max_det q_mode q_omega] in H.
    + congruence.
    + congruence.
    + lia.
    + unfold int_max in H. lia.
    + exact (H DE).
Qed.
End Main.
