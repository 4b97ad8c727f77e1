(** Counting: generic vectors, tangent cones. *)
From Coq Require Import QArith Qfield Lqa.
From Verif Require Import Common SmithSpec ZMat Hermite HermiteProofs Det DetProofs RatVec RatVecSpec RatVecProofs Piped PipedSpec PipedProofs PipedProofs3 PipedProofs4 ConeSpec ConeProofs Irrational IrrationalProofs IrrationalProofs2 IrrationalProofs3 IntegMath Series Exponential ExpSpec ExpProofs ExpProofs2 ExpProofs3 ExpProofs4 P_Exponential CountSpec Barvinok BarvinokSpec BarvinokProofs BarvinokProofs2 BarvinokProofs3 BarvinokProofs4 P_Barvinok BrionLinear BrionProofs BrionProofs2 BrionProofs3 EulerProofs BrionProofs4 BrionProofs5 Count CountProofs CountProofs2 CountProofs3.
Open Scope Z_scope.

(** The same parameters with other fuels. *)
Definition fueled (P : params) (f1 f2 : nat) : params := mkParams f1 f2 (q_depth P) (q_mode P) (q_sv P) (q_max_det P) (q_omega P) (q_ker P) (q_xg P) (q_tri P).

Lemma status_generic g d : generic_status g d = -1 <-> zprodl (map (zdot g) (s_rays (b_cone d))) = 0.
Proof.
  unfold generic_status. destruct (Z.eq_dec (zprodl (map (zdot g) (s_rays (b_cone d)))) 0) as [E|E].
  - rewrite (proj2 (weights_thrown g _) E). tauto.
  - destruct (weights_ok g (s_rays (b_cone d)) E) as (w & -> & _). split; [discriminate|contradiction].
Qed.
Definition cone_of_item (g : list Z) (x : xitem) : econe := let '(w, v, d, pts) := x in mkE (b_coef d) (s_rays (b_cone d)) (map (zdot g) pts) (zdot g w).
Definition count_upd (g : list Z) (x : xitem) (a b : Q) : Prop := (b == a + ExpProofs4.value g (cone_of_item g x))%Q.
Definition ehrhart_upd (g : list Z) (x : xitem) (a b : list Q) : Prop := forall t, (poly_at b (inject_Z t) == poly_at a (inject_Z t) + ExpProofs4.value g (dilate t (cone_of_item g x)))%Q.
(** What a caller's function has to satisfy. *)
Definition consumer_ok {A} (P : params) (n : nat) (f : params -> list Z -> list Z -> rvec -> bcone -> A -> outcome (option A)) (Good : A -> Prop) (U : list Z -> xitem -> A -> A -> Prop) : Prop :=
  forall g w v d, length g = n -> usable n v -> cone_ok n (b_cone d) -> exists F2, forall f1 f2, (F2 <= f2)%nat -> small P d -> let P' := fueled P f1 f2 in
  generic_status g d = -1 /\ (forall acc, f P' g w v d acc = Ok None) \/
  int_max < Z.abs (s_det (b_cone d)) /\ (forall acc, f P' g w v d acc = Err Exited) \/
  generic_status g d <> -1 /\ exists pts, exact_points n (w, v, d, pts) /\ forall acc, Good acc -> exists acc', f P' g w v d acc = Ok (Some acc') /\ Good acc' /\ U g (w, v, d, pts) acc acc'.
Lemma sps_zdot n h ps : length h = n -> map (fun x => sumz n (fun k => nth k h 0 * nth k x 0)) ps = map (zdot h) ps.
Proof. intros L. apply map_ext. intros x. unfold zdot. rewrite L. apply sumz_zsum. Qed.
Lemma scalar_products_big f xg n c v h : int_max < Z.abs (s_det c) -> scalar_products f xg n c v h = Err Exited.
Proof. intros H. unfold scalar_products. rewrite (proj2 (Z.ltb_lt _ _) H). reflexivity. Qed.
Lemma count_consumer P n : (0 < n)%nat -> xgcd_contract (q_xg P) -> consumer_ok P n (fun P' => count_consume P' n) (fun _ => True) count_upd.
Proof.
  intros Hn XG g w v d Lg UV OK. destruct (Z.eq_dec (zprodl (map (zdot g) (s_rays (b_cone d)))) 0) as [Z0|NZ].
  - exists 0%nat. intros f1 f2 _ _ P'. left. split; [now apply status_generic|]. intros acc. unfold count_consume. now rewrite (proj2 (weights_thrown g _) Z0).
  - destruct (weights_ok g (s_rays (b_cone d)) NZ) as (wt & EW & _). destruct (Z.le_gt_cases (Z.abs (s_det (b_cone d))) int_max) as [B|B].
    + destruct UV as [RV Dv]. destruct (scalar_products_exact (q_xg P) n (b_cone d) v g XG Hn OK RV Dv Lg B) as (F & ps & ND & IN & E). exists F. intros f1 f2 Hf _ P'. right. right. split; [now rewrite status_generic|]. exists ps. split; [exact (conj (conj RV Dv) (conj OK (conj ND IN)))|].
      intros acc _. unfold count_consume. rewrite EW. cbn [P' fueled q_fuel2 q_xg]. rewrite (E f2 Hf), (sps_zdot n g ps Lg). cbn [bind].
      destruct (single_ok n g (mkE (b_coef d) (s_rays (b_cone d)) (map (zdot g) ps) 0)) as (q & Eq & Vq); [exact NZ|cbn [e_rays]; rewrite (proj1 (proj1 OK)); lia|]. rewrite Eq. cbn [bind]. eexists. split; [reflexivity|]. split; [exact I|]. unfold count_upd, ExpProofs4.value, cone_of_item. cbn [e_coef e_rays e_sps] in *. rewrite Vq. reflexivity.
    + exists 0%nat. intros f1 f2 _ _ P'. right. left. split; [exact B|]. intros acc. unfold count_consume. rewrite EW. rewrite (scalar_products_big _ _ _ _ _ _ B). reflexivity.
Qed.
Lemma ehrhart_consumer P n : (0 < n)%nat -> xgcd_contract (q_xg P) -> consumer_ok P n (fun P' => ehrhart_consume_cone P' n) (fun l => length l = S n) ehrhart_upd.
Proof.
  intros Hn XG g w v d Lg UV OK. destruct (Z.eq_dec (zprodl (map (zdot g) (s_rays (b_cone d)))) 0) as [Z0|NZ].
  - exists 0%nat. intros f1 f2 _ _ P'. left. split; [now apply status_generic|]. intros acc. unfold ehrhart_consume_cone. now rewrite (proj2 (weights_thrown g _) Z0).
  - destruct (weights_ok g (s_rays (b_cone d)) NZ) as (wt & EW & _). destruct (Z.le_gt_cases (Z.abs (s_det (b_cone d))) int_max) as [B|B].
    + destruct UV as [RV Dv]. destruct (scalar_products_exact (q_xg P) n (b_cone d) v g XG Hn OK RV Dv Lg B) as (F & ps & ND & IN & E). exists F. intros f1 f2 Hf _ P'. right. right. split; [now rewrite status_generic|]. exists ps. split; [exact (conj (conj RV Dv) (conj OK (conj ND IN)))|].
      intros acc GA. unfold ehrhart_consume_cone. rewrite EW. cbn [P' fueled q_fuel2 q_xg]. rewrite (E f2 Hf), (sps_zdot n g ps Lg). cbn [bind].
      destruct (consume_ok n g (mkE (b_coef d) (s_rays (b_cone d)) (map (zdot g) ps) (zdot g w)) acc NZ (proj1 (proj1 OK)) GA) as (l & El & Ll & V). rewrite El. exists l. split; [reflexivity|]. split; [exact Ll|exact V].
    + exists 0%nat. intros f1 f2 _ _ P'. right. left. split; [exact B|]. intros acc. unfold ehrhart_consume_cone. rewrite EW. rewrite (scalar_products_big _ _ _ _ _ _ B). reflexivity.
Qed.

Lemma all_fuel {X} (Q0 : X -> nat -> Prop) (l : list X) : (forall x, In x l -> exists F, forall f, (F <= f)%nat -> Q0 x f) -> exists F, forall f, (F <= f)%nat -> forall x, In x l -> Q0 x f.
Proof.
  induction l as [|x l IH]; intros H; [exists 0%nat; intros f _ x []|]. destruct (H x (or_introl eq_refl)) as (F1 & H1). destruct (IH (fun y Hy => H y (or_intror Hy))) as (F2 & H2). exists (Nat.max F1 F2). intros f Hf y [<-|Hy]; [apply H1; lia|apply H2; [lia|exact Hy]].
Qed.
Definition all_items (P : params) (n : nat) (cones : list vcone) (f : nat) : list item :=
  flat_map (fun c => flat_map (fun t => map (fun vd => (snd c, fst vd, snd vd)) (piece_all f P n (fst (fst c)) t)) (q_tri P (snd (fst c)))) cones.
Section List.
Context (A : Type) (P : params) (n : nat) (cf : params -> list Z -> list Z -> rvec -> bcone -> A -> outcome (option A)) (Good : A -> Prop) (U : list Z -> xitem -> A -> A -> Prop) (init : A) (cones : list vcone).
Context (Hn : (0 < n)%nat) (KC : relation_contract (q_ker P)) (OC : omega_contract (q_omega P)) (PC : q_mode P = DualDecomposition -> primitive_choice (q_omega P)) (Hmax : 0 <= q_max_det P).
Context (CO : consumer_ok P n cf Good U) (GI : Good init).
Context (HC : forall c, In c cones -> usable n (fst (fst c)) /\ forall t, In t (q_tri P (snd (fst c))) -> n_vectors n t /\ lin_indep n t).

Lemma items_stable : exists F, forall f, (F <= f)%nat -> all_items P n cones f = all_items P n cones F.
Proof.
  assert (S1 : forall c, In c cones -> exists F, forall f, (F <= f)%nat -> forall t, In t (q_tri P (snd (fst c))) -> forall f', (F <= f')%nat -> piece_all f P n (fst (fst c)) t = piece_all f' P n (fst (fst c)) t).
  { intros c Hc. destruct (HC c Hc) as [UV HT]. destruct (all_fuel (fun t f => forall f', (f <= f')%nat -> piece_all f' P n (fst (fst c)) t = piece_all f P n (fst (fst c)) t) (q_tri P (snd (fst c)))) as (F & HF).
    - intros t Ht. destruct (HT t Ht) as [NV LI]. destruct (piece_all_stable P n (fst (fst c)) t Hn KC OC PC NV LI) as (F & HF). exists F. intros f Hf f' Hf'. rewrite (HF f Hf), (HF f' ltac:(lia)). reflexivity.
    - exists F. intros f Hf t Ht f' Hf'. rewrite (HF F (le_n F) t Ht f Hf), (HF F (le_n F) t Ht f' Hf'). reflexivity. }
  destruct (all_fuel (fun c f => forall t, In t (q_tri P (snd (fst c))) -> forall f', (f <= f')%nat -> piece_all f' P n (fst (fst c)) t = piece_all f P n (fst (fst c)) t) cones) as (F & HF).
  - intros c Hc. destruct (S1 c Hc) as (F & HF). exists F. intros f Hf t Ht f' Hf'. apply HF; [lia|exact Ht|exact Hf].
  - exists F. intros f Hf. unfold all_items. apply flat_map_ext_in. intros c Hc. apply flat_map_ext_in. intros t Ht. rewrite (HF F (le_n F) c Hc t Ht f Hf). reflexivity.
Qed.
Lemma items_usable f w v d : In (w, v, d) (all_items P n cones f) -> usable n v /\ cone_full n (b_cone d).
Proof.
  intros H. apply in_flat_map in H as (c & Hc & H). apply in_flat_map in H as (t & Ht & H). apply in_map_iff in H as ((v' & d') & E & H). injection E as _ <- <-. destruct (HC c Hc) as [UV HT]. destruct (HT t Ht) as [NV LI]. exact (piece_all_ok P n (fst (fst c)) t Hn KC OC PC UV NV LI f v' d' H).
Qed.
Lemma list_ok : exists N, (forall r, In r N -> length r = n /\ exists k, (k < n)%nat /\ nth k r 0 <> 0) /\
  forall guesses, (forall g, In g guesses -> length g = n) -> exists F1, forall f1, (F1 <= f1)%nat -> exists F2, forall f2, (F2 <= f2)%nat ->
  match decomposition_list (fueled P f1 f2) n (cf (fueled P f1 f2)) init cones guesses with
  | Ok a => exists g pss xs, In g guesses /\ Forall2 (cone_pieces n P) cones pss /\ map fst xs = flat_map (fun cp => flat_map (items_of (snd (fst cp))) (snd cp)) (List.combine cones pss) /\
      Forall (fun x => generic_status g (snd (fst x)) <> -1) xs /\ Forall (exact_points n) xs /\ chain (U g) xs init a /\ Good a
  | Err e => failure n P e \/ e = OutOfFuel /\ forall g, In g guesses -> exists r, In r N /\ zdot g r = 0
  end.
Proof.
  destruct items_stable as (F & HF). exists (flat_map (fun i => s_rays (b_cone (snd i))) (all_items P n cones F)). split.
  { intros r Hr. apply in_flat_map in Hr as ([[w v] d] & Hi & Hr). destruct (items_usable F w v d Hi) as [_ [OK _]]. cbn [snd] in Hr. pose proof OK as ((LR & FR) & ED & D0 & _). rewrite Forall_forall in FR. split; [auto|].
    destruct (existsb (fun k => negb (nth k r 0 =? 0)) (seq 0 n)) eqn:EX.
    - apply existsb_exists in EX as (k & Hk & Ek). apply in_seq in Hk. exists k. split; [lia|]. now apply negb_true_iff, Z.eqb_neq in Ek.
    - exfalso. apply (In_nth _ _ []) in Hr as (i & Hi' & Ei). rewrite LR in Hi'. assert (LI : lin_indep n (s_rays (b_cone d))) by (apply det_indep; now rewrite <- ED).
      pose proof (LI (fun k => if Nat.eqb k i then 1 else 0)) as L0. assert (L1 : (if Nat.eqb i i then 1 else 0) = 0); [|rewrite Nat.eqb_refl in L1; discriminate]. apply L0; [|exact Hi']. intros j Hj. rewrite sumz_zsum, (zsum_single n _ i Hi') by (intros k Hk NE; rewrite (proj2 (Nat.eqb_neq k i) NE); ring). rewrite Nat.eqb_refl, Z.mul_1_l. unfold vat. rewrite Ei.
      destruct (Z.eq_dec (nth j r 0) 0) as [E0|N0]; [exact E0|]. assert (X : existsb (fun k => negb (nth k r 0 =? 0)) (seq 0 n) = true); [|congruence]. apply existsb_exists. exists j. split; [apply in_seq; lia|]. now apply negb_true_iff, Z.eqb_neq. }
  intros guesses LG.
  (* fuel for the decompositions *)
  destruct (all_fuel (fun gct f => forall f2, enough (fueled P f f2) n (generic_status (fst (fst gct))) (snd (fst gct)) (snd gct))
      (flat_map (fun g => flat_map (fun c : vcone => map (fun t => (g, fst (fst c), t)) (q_tri P (snd (fst c)))) cones) guesses)) as (F1 & HF1).
  { intros [[g v] t] Hx. apply in_flat_map in Hx as (g' & Hg & Hx). apply in_flat_map in Hx as (c & Hc & Hx). apply in_map_iff in Hx as (t' & E & Ht). injection E as -> <- ->. destruct (HC c Hc) as [UV HT]. destruct (HT t Ht) as [NV LI]. cbn [fst snd].
    destruct (enough_fuel P n (generic_status g) Hn KC OC PC Hmax (fst (fst c)) t UV NV LI) as (F0 & H0). exists F0. intros f Hf f2. exact (H0 f Hf). }
  exists (Nat.max F F1). intros f1 Hf1. set (its := all_items P n cones f1).
  (* fuel for the parallelepipeds *)
  destruct (all_fuel (fun gi f2 => let '(g, (w, v, d)) := gi in small P d -> let P' := fueled P f1 f2 in
    generic_status g d = -1 /\ (forall acc, cf P' g w v d acc = Ok None) \/
    int_max < Z.abs (s_det (b_cone d)) /\ (forall acc, cf P' g w v d acc = Err Exited) \/
    generic_status g d <> -1 /\ exists pts, exact_points n (w, v, d, pts) /\ forall acc, Good acc -> exists acc', cf P' g w v d acc = Ok (Some acc') /\ Good acc' /\ U g (w, v, d, pts) acc acc')
      (flat_map (fun g => map (fun i => (g, i)) its) guesses)) as (F2 & HF2).
  { intros [g [[w v] d]] Hx. apply in_flat_map in Hx as (g' & Hg & Hx). apply in_map_iff in Hx as (i & E & Hi). injection E as -> ->. destruct (items_usable f1 w v d Hi) as [UV [OK _]]. destruct (CO g w v d (LG g Hg) UV OK) as (F2 & H2). exists F2. intros f2 Hf2. exact (H2 f1 f2 Hf2). }
  exists F2. intros f2 Hf2. specialize (HF1 f1 ltac:(lia)). specialize (HF2 f2 Hf2). rewrite <- (HF f1) by lia. fold its. clear LG.
  assert (G : forall gs, incl gs guesses -> match decomposition_list (fueled P f1 f2) n (cf (fueled P f1 f2)) init cones gs with
    | Ok a => exists g pss xs, In g guesses /\ Forall2 (cone_pieces n P) cones pss /\ map fst xs = flat_map (fun cp => flat_map (items_of (snd (fst cp))) (snd cp)) (List.combine cones pss) /\
        Forall (fun x => generic_status g (snd (fst x)) <> -1) xs /\ Forall (exact_points n) xs /\ chain (U g) xs init a /\ Good a
    | Err e => failure n P e \/ e = OutOfFuel /\ forall g, In g gs -> exists r, In r (flat_map (fun i => s_rays (b_cone (snd i))) its) /\ zdot g r = 0
    end); [|exact (G guesses (incl_refl _))].
  induction gs as [|g gs IH]; intros IG; cbn [decomposition_list]; [right; split; [reflexivity|intros g []]|]. assert (Hg : In g guesses) by (apply IG; now left). specialize (IH (fun x Hx => IG x (or_intror Hx))).
  assert (HFF : forall w v d, In (w, v, d) its -> small P d -> let P' := fueled P f1 f2 in
    generic_status g d = -1 /\ (forall acc, cf P' g w v d acc = Ok None) \/
    int_max < Z.abs (s_det (b_cone d)) /\ (forall acc, cf P' g w v d acc = Err Exited) \/
    generic_status g d <> -1 /\ exists pts, exact_points n (w, v, d, pts) /\ forall acc, Good acc -> exists acc', cf P' g w v d acc = Ok (Some acc') /\ Good acc' /\ U g (w, v, d, pts) acc acc').
  { intros w v d Hi. exact (HF2 (g, (w, v, d)) (proj2 (in_flat_map _ _ _) (ex_intro _ g (conj Hg (in_map (fun i => (g, i)) _ _ Hi))))). }
  assert (HCC : forall v R w t, In (v, R, w) cones -> usable n v /\ (In t (q_tri (fueled P f1 f2) R) -> n_vectors n t /\ lin_indep n t /\ enough (fueled P f1 f2) n (generic_status g) v t /\ forall v' d, In (v', d) (piece_all (q_fuel (fueled P f1 f2)) (fueled P f1 f2) n v t) -> In (w, v', d) its)).
  { intros v R w t Hc. destruct (HC (v, R, w) Hc) as [UV HT]. split; [exact UV|]. cbn [fueled q_tri fst snd] in *. intros Ht. destruct (HT t Ht) as [NV LI]. split; [exact NV|]. split; [exact LI|]. split.
    - apply (HF1 (g, v, t)). apply in_flat_map. exists g. split; [exact Hg|]. apply in_flat_map. exists (v, R, w). split; [exact Hc|]. cbn [fst snd]. apply in_map_iff. exists t. auto.
    - intros v' d Hd. unfold its, all_items. apply in_flat_map. exists (v, R, w). split; [exact Hc|]. cbn [fst snd]. apply in_flat_map. exists t. split; [exact Ht|]. apply in_map_iff. exists (v', d). split; [reflexivity|exact Hd]. }
  pose proof (cones_ok A (fueled P f1 f2) n (generic_status g) (cf (fueled P f1 f2) g) Good (U g) its HFF Hn PC cones HCC init GI) as CK.
  destruct (cones_loop (fueled P f1 f2) n (generic_status g) (cf (fueled P f1 f2) g) cones init) as [[a|]|e]; cbn [bind]; [| |left; exact CK].
  - destruct CK as (GA & pss & xs & A1 & A2 & A3 & A4 & A5). exists g, pss, xs. repeat (split; [assumption|]). exact GA.
  - destruct (decomposition_list (fueled P f1 f2) n (cf (fueled P f1 f2)) init cones gs) as [a|e]; [exact IH|]. destruct IH as [IH|[IH1 IH2]]; [left; exact IH|right]. split; [exact IH1|]. intros g' [<-|Hg']; [|auto].
    destruct CK as (w' & v' & d & Hi & S1). apply status_generic, nongeneric_prod in S1 as (r & Hr & E). exists r. split; [|exact E]. apply in_flat_map. exists (w', v', d). auto.
Qed.
End List.
