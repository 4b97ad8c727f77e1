(** Counting the integer points of a polytope. *)
From Coq Require Import QArith Qfield Lqa.
From Verif Require Import Common SmithSpec ZMat Hermite HermiteProofs Det DetProofs RatVec RatVecSpec RatVecProofs Piped PipedSpec PipedProofs PipedProofs3 PipedProofs4 ConeSpec ConeProofs Irrational IrrationalProofs IrrationalProofs2 IrrationalProofs3 IntegMath Series DecompProofs Exponential ExpSpec ExpProofs ExpProofs2 ExpProofs3 ExpProofs4 P_Exponential CountSpec Barvinok BarvinokSpec BarvinokProofs BarvinokProofs2 BarvinokProofs3 BarvinokProofs4 P_Barvinok BrionLinear BrionProofs BrionProofs2 BrionProofs3 EulerProofs BrionProofs4 BrionProofs5 Count CountProofs CountProofs2 CountProofs3 CountProofs4.
Open Scope Z_scope.

Lemma fold_filter {A B} (b : A -> bool) (h : A -> B) l : forall acc, fold_left (fun acc x => if b x then h x :: acc else acc) l acc = rev (map h (filter b l)) ++ acc.
Proof. induction l as [|x l IH]; intros acc; [reflexivity|]. cbn [fold_left filter]. rewrite IH. destruct (b x); [|reflexivity]. cbn [map rev]. rewrite <- app_assoc. reflexivity. Qed.
Lemma opp_tail n c : length c = S n -> map (fun i => - nth (S i) c 0) (seq 0 n) = map Z.opp (tl c).
Proof.
  intros L. destruct c as [|b a]; [discriminate|]. cbn [tl nth length] in *. apply nth_ext with (d := 0) (d' := 0); [rewrite !map_length, seq_length; lia|]. intros k Hk. rewrite map_length, seq_length in Hk. rewrite nth_map_seq by exact Hk. rewrite (nth_map0 _ _ _ _ 0) by lia. reflexivity.
Qed.
Lemma tight_ok n rows v : usable n v -> (forall c, In c rows -> length c = S n) -> tight_inequalities n rows v = Ok (outer_normals n rows (coord v)) /\ exists v' w s, scale_to_integer v n = Ok (v', w, s) /\ s <> 0 /\ length w = n /\ forall i, (i < n)%nat -> (inject_Z (nth i w 0%Z) == inject_Z s * coord v i)%Q.
Proof.
  intros [(Pr & k & DP & R) Dv] LR. destruct (scale_exact Pr k v DP R) as (v' & w & s & SE & Hs & Lw & SV & _). rewrite Dv in SE, Lw, SV. split; [|exists v', w, s; auto]. unfold tight_inequalities. rewrite SE. cbn [bind].
  rewrite (proj2 (forallb_forall _ rows)) by (intros c Hc; apply Nat.eqb_eq; auto). cbn [negb]. f_equal. rewrite (fold_filter (fun c => tight_product n w s c =? 0) (fun c => map (fun i => - nth (S i) c 0) (seq 0 n))), app_nil_r. unfold outer_normals. f_equal.
  assert (EF : filter (fun c => tight_product n w s c =? 0) rows = filter (fun c => Qeq_bool (slack n c (coord v)) 0) rows).
  { apply filter_ext. intros c. apply eq_iff_eq_true. rewrite Z.eqb_eq, Qeq_bool_iff.
    assert (E : (inject_Z (tight_product n w s c) == inject_Z s * slack n c (coord v))%Q).
    { unfold tight_product, slack. rewrite inject_Z_plus, inject_Z_mult, <- sumq_inj, Qmult_plus_distr_r, <- sumq_scal. apply Qplus_comp; [reflexivity|]. apply sumq_ext. intros i Hi. rewrite inject_Z_mult, (SV i Hi). ring. }
    split; intros H.
    - rewrite H in E. destruct (Qmult_integral _ _ (Qeq_sym _ _ E)) as [X|X]; [exfalso; exact (inject_nz s Hs X)|exact X].
    - rewrite H, Qmult_0_r in E. apply inject_Z_injective. exact E. }
  rewrite EF. apply map_ext_in. intros c Hc. apply filter_In in Hc as [Hc _]. apply opp_tail. auto.
Qed.
Lemma below_normals n rows v x : (forall c, In c rows -> length c = S n) -> (below n (outer_normals n rows v) (fun k => x k - v k)%Q <-> in_tangent_cone n rows v x).
Proof.
  intros LR.
  assert (E : forall c, In c rows -> (slack n c v == 0)%Q -> (sumq n (fun k => (x k - v k) * zpoint (map Z.opp (tl c)) k) == - slack n c x)%Q).
  { intros c Hc T. pose proof (slack_diff n c x v) as D. rewrite T in D. setoid_replace (- slack n c x)%Q with (- (slack n c x - 0))%Q by ring. rewrite D. unfold qdot. setoid_replace (- sumq n (fun k => (x k - v k) * inject_Z (lin c k)))%Q with ((-1) * sumq n (fun k => (x k - v k) * inject_Z (lin c k)))%Q by ring.
    rewrite <- sumq_scal. apply sumq_ext. intros k Hk. unfold zpoint, lin. pose proof (LR c Hc) as L. destruct c as [|b a]; [discriminate|]. cbn [tl nth length] in *. rewrite (nth_map0 _ _ _ _ 0) by lia. rewrite inject_Z_opp. ring. }
  unfold below, in_tangent_cone, outer_normals. split.
  - intros H c Hc T. specialize (H (map Z.opp (tl c))). rewrite (E c Hc T) in H. assert (I : (- slack n c x <= 0)%Q); [|lra]. apply H. rewrite <- in_rev. apply in_map_iff. exists c. split; [reflexivity|]. apply filter_In. split; [exact Hc|]. now apply Qeq_bool_iff.
  - intros H r Hr. rewrite <- in_rev in Hr. apply in_map_iff in Hr as (c & <- & Hc). apply filter_In in Hc as [Hc T]. apply Qeq_bool_iff in T. rewrite (E c Hc T). specialize (H c Hc T). lra.
Qed.
Lemma tind_iff n rows v x : in_polyhedron n rows v -> Tind n rows v x = 1 /\ in_tangent_cone n rows v (zpoint x) \/ Tind n rows v x = 0 /\ ~ in_tangent_cone n rows v (zpoint x).
Proof.
  intros PV. unfold Tind, full_ind. destruct (forallb (tanb n v (zpoint x)) rows) eqn:F; [left|right]; (split; [reflexivity|]).
  - rewrite forallb_forall in F. intros c Hc T. specialize (F c Hc). unfold tanb in F. apply andb_true_iff in F as [_ F]. apply orb_true_iff in F as [F|F]; [|apply Qle_bool_iff, F]. exfalso. apply negb_true_iff in F. apply Qeq_bool_iff in T. congruence.
  - intros H. assert (X : forallb (tanb n v (zpoint x)) rows = true); [|congruence]. apply forallb_forall. intros c Hc. unfold tanb. unfold okb at 1. rewrite (proj2 (Qle_bool_iff 0 (slack n c v)) (PV c Hc)). cbn [andb]. destruct (Qeq_bool (slack n c v) 0) eqn:T; [|reflexivity]. apply Qeq_bool_iff in T. cbn [negb orb]. apply Qle_bool_iff. now apply H.
Qed.
Lemma fpol_tind n rows v x : in_polyhedron n rows v -> (forall c, In c rows -> length c = S n) -> fpol n v (outer_normals n rows v) x = Tind n rows v x.
Proof.
  intros PV LR. unfold fpol. pose proof (gen_polar n (outer_normals n rows v) (at_ v x)) as G. unfold at_ in G. rewrite (below_normals n rows v (zpoint x) LR) in G. unfold at_. destruct (tind_iff n rows v x PV) as [[-> H]|[-> H]].
  - now rewrite (proj2 G H).
  - destruct (polb n (fun k => (zpoint x k - v k)%Q) (gen_rows n (outer_normals n rows v))); [exfalso; apply H, G; reflexivity|reflexivity].
Qed.
Lemma points_ind n rows points x : integer_points n rows points -> length x = n -> gcoeff (gpoints points) x = Ind n rows x.
Proof.
  intros [ND HP] Lx. rewrite (gcoeff_points points x ND). unfold Ind, full_ind. f_equal. assert (E : forallb (okb n (zpoint x)) rows = true <-> in_polyhedron n rows (zpoint x)).
  { rewrite forallb_forall. unfold in_polyhedron, okb. split; intros H c Hc; specialize (H c Hc); now apply Qle_bool_iff. }
  destruct (in_dec (list_eq_dec Z.eq_dec) x points) as [I|I]; [apply HP in I as [_ I]; symmetry; now apply E|]. destruct (forallb (okb n (zpoint x)) rows); [|reflexivity]. exfalso. apply I, HP. split; [exact Lx|]. now apply E.
Qed.
Lemma vertices_nodup n (vs : list (nat -> Q)) : (forall i j, (i < j)%nat -> (j < length vs)%nat -> ~ same_point n (nth i vs origin) (nth j vs origin)) -> NoDup (map (cpt n) vs).
Proof.
  intros H. apply (NoDup_nth _ (cpt n origin)). rewrite map_length. intros i j Hi Hj E. rewrite !map_nth in E. apply cpt_eq in E. destruct (Nat.lt_trichotomy i j) as [L|[L|L]]; [exfalso; exact (H i j L Hj E)|exact L|exfalso]. apply (H j i L Hi). intros k Hk. symmetry. now apply E.
Qed.
Lemma brion_points n rows vs points : all_vertices n rows vs -> integer_points n rows points -> negl n (fun x => gcoeff (gpoints points) x - lsum (map (fun v => Tind n rows v x) vs)).
Proof.
  intros (V1 & V2 & V3) IP. refine (negl_ext n _ _ _ (brion_lattice n rows vs (vertices_nodup n vs V3) V1 V2)). intros x Hx. cbv beta. now rewrite (points_ind n rows points x IP Hx).
Qed.
Lemma points_len n rows points : integer_points n rows points -> Forall (fun p => length p = n) points.
Proof. intros [_ HP]. apply Forall_forall. intros p Hp. apply HP in Hp. tauto. Qed.
Lemma vsub_zero n x : length x = n -> vsub x (repeat 0 n) = x.
Proof. intros <-. unfold vsub. induction x as [|a x IH]; [reflexivity|]. cbn [length repeat map vadd]. rewrite IH. f_equal. lia. Qed.
Lemma vadd_zero n x : length x = n -> vadd x (repeat 0 n) = x.
Proof. intros <-. induction x as [|a x IH]; [reflexivity|]. cbn [length repeat vadd]. rewrite IH. f_equal. lia. Qed.
Lemma mapM_all {X Y} (h : X -> outcome Y) (k : X -> Y) l : (forall x, In x l -> h x = Ok (k x)) -> mapM h l = Ok (map k l).
Proof. induction l as [|x l IH]; intros H; [reflexivity|]. cbn [mapM map]. rewrite (H x (or_introl eq_refl)). cbn [bind]. rewrite IH by (intros y Hy; apply H; now right). reflexivity. Qed.
Lemma count_chain g xs : forall a b, chain (count_upd g) xs a b -> (b == a + qsum (fun x => ExpProofs4.value g (cone_of_item g x)) xs)%Q.
Proof. intros a b H. induction H as [a|x l a b c U0 H IH]; cbn [qsum]; [ring|]. unfold count_upd in U0. rewrite IH, U0. ring. Qed.


Lemma zdot_nil_scale t (g w : list Z) : zdot g (map (Z.mul t) w) = t * zdot g w.
Proof. unfold zdot. rewrite <- ZMat.zsum_scal. apply ZMat.zsum_ext. intros k _. rewrite (map_nth_Z t w k). ring. Qed.
(** The cones passed on, moved by sh, generate the points. *)
Lemma passed_generate n sh P cones pss xs points g :
  (forall c : vcone, In c cones -> triangulates n (snd (fst c)) (q_tri P (snd (fst c))) /\ length (sh (snd c)) = n) -> Forall2 (cone_pieces n P) cones pss ->
  map fst xs = flat_map (fun cp => flat_map (items_of (snd (fst cp))) (snd cp)) (List.combine cones pss) ->
  Forall (fun x : xitem => generic_status g (snd (fst x)) <> -1) xs -> Forall (exact_points n) xs -> Forall (fun p => length p = n) points ->
  negl n (fun x => gcoeff (gpoints points) x - lsum (map (fun c : vcone => hfun n (q_mode P) (fst (fst c)) (snd (fst c)) (vsub x (sh (snd c)))) cones)) ->
  generates n (map (gcone_of sh) xs) points /\ Forall (gc_ok n) (map (gcone_of sh) xs) /\ zprodl (map (zdot g) (all_rays (map (gcone_of sh) xs))) <> 0.
Proof.
  intros HC CP M GS EX FP BR.
  assert (OKI : forall i, In i (flat_map (fun cp => flat_map (items_of (snd (fst cp))) (snd cp)) (List.combine cones pss)) -> cone_ok n (b_cone (snd i))).
  { intros i Hi. rewrite <- M in Hi. apply in_map_iff in Hi as ([[[w v] d] pts] & <- & Hx). rewrite Forall_forall in EX. destruct (EX _ Hx) as (_ & OK & _). exact OK. }
  assert (LS : forall x, In x xs -> length (sh (fst (fst (fst x)))) = n).
  { intros x Hx. apply (in_map fst) in Hx. rewrite M in Hx. apply in_flat_map in Hx as ([c ps] & H1 & H2). apply in_flat_map in H2 as (p & _ & H2). unfold items_of in H2. apply in_map_iff in H2 as (d & <- & _). apply in_combine_l in H1. cbn [fst snd]. apply HC, H1. }
  assert (GEN : generates n (map (gcone_of sh) xs) points).
  { apply (items_generate n sh xs points EX LS FP). rewrite M. pose proof (cones_sum n sh P cones pss HC CP OKI) as CS.
    refine (negl_ext n _ _ _ (negl_add n _ _ BR (negl_scale n (-1) _ CS))). intros x Hx. cbv beta. lia. }
  assert (FG : Forall (gc_ok n) (map (gcone_of sh) xs)).
  { apply Forall_map, Forall_forall. intros [[[w v] d] pts] Hx. rewrite Forall_forall in EX. exact (proj1 (item_matches n sh w v d pts (EX _ Hx) (LS _ Hx))). }
  assert (NZ : zprodl (map (zdot g) (all_rays (map (gcone_of sh) xs))) <> 0).
  { clear -GS. induction GS as [|[[[w v] d] pts] xs H GS IH]; [cbn; lia|]. cbn [map]. rewrite all_rays_cons, map_app, zprodl_app. cbn [gcone_of fst snd] in *. rewrite status_generic in H. intros E. apply Z.mul_eq_0 in E as [E|E]; [exact (H E)|exact (IH E)]. }
  exact (conj GEN (conj FG NZ)).
Qed.
(** The residues of the cones passed on, moved by sh, add up to the number of points. *)
Lemma residues_count n sh P cones pss xs points g :
  (forall c : vcone, In c cones -> triangulates n (snd (fst c)) (q_tri P (snd (fst c))) /\ length (sh (snd c)) = n) -> Forall2 (cone_pieces n P) cones pss ->
  map fst xs = flat_map (fun cp => flat_map (items_of (snd (fst cp))) (snd cp)) (List.combine cones pss) ->
  Forall (fun x : xitem => generic_status g (snd (fst x)) <> -1) xs -> Forall (exact_points n) xs -> Forall (fun p => length p = n) points ->
  negl n (fun x => gcoeff (gpoints points) x - lsum (map (fun c : vcone => hfun n (q_mode P) (fst (fst c)) (snd (fst c)) (vsub x (sh (snd c)))) cones)) ->
  (qsum (fun x => let '(w, v, d, pts) := x in ExpProofs4.value g (mkE (b_coef d) (s_rays (b_cone d)) (map (fun p => zdot g (vadd p (sh w))) pts) 0)) xs == qnat (length points))%Q.
Proof.
  intros HC CP M GS EX FP BR. destruct (passed_generate n sh P cones pss xs points g HC CP M GS EX FP BR) as (GEN & FG & NZ).
  rewrite <- (gtotal_count n g (map (gcone_of sh) xs) points FG NZ FP GEN), qsum_map. apply qsum_ext. intros [[[w v] d] pts] Hx. unfold ExpProofs4.value, gcone_of. cbn [fst snd e_coef e_rays e_sps]. rewrite map_map. reflexivity.
Qed.

(** The cones stand for the tangent cones: the result is the number of points. *)
Section Final.
Context (P : params) (n : nat) (rows : list (list Z)) (points : list (list Z)) (vs : list (nat -> Q)) (cones : list vcone).
Context (Hn : (0 < n)%nat) (KC : relation_contract (q_ker P)) (OC : omega_contract (q_omega P)) (PC : q_mode P = DualDecomposition -> primitive_choice (q_omega P)) (Hmax : 0 <= q_max_det P) (XG : xgcd_contract (q_xg P)).
Context (HC : forall c, In c cones -> usable n (fst (fst c)) /\ triangulates n (snd (fst c)) (q_tri P (snd (fst c)))).
Definition outcome_ok {A} (good : A -> Prop) (N : list (list Z)) (guesses : list (list Z)) (o : outcome A) : Prop :=
  match o with
  | Ok z => good z
  | Err e => failure n P e \/ e = OutOfFuel /\ forall g, In g guesses -> exists r, In r N /\ zdot g r = 0
  end.
Theorem count_cones_ok : all_vertices n rows vs -> integer_points n rows points ->
  (forall x, length x = n -> lsum (map (fun c : vcone => hfun n (q_mode P) (fst (fst c)) (snd (fst c)) x) cones) = lsum (map (fun v => Tind n rows v x) vs)) ->
  exists N, (forall r, In r N -> length r = n /\ exists k, (k < n)%nat /\ nth k r 0 <> 0) /\
  forall guesses, (forall g, In g guesses -> length g = n) -> exists F1, forall f1, (F1 <= f1)%nat -> exists F2, forall f2, (F2 <= f2)%nat ->
  outcome_ok (fun z => z = Z.of_nat (length points)) N guesses (count_cones (fueled P f1 f2) n guesses cones).
Proof.
  intros AV IP HT.
  destruct (list_ok Q P n (fun P' => count_consume P' n) (fun _ => True) count_upd 0%Q cones Hn KC OC PC Hmax (count_consumer P n Hn XG) I (fun c Hc => conj (proj1 (HC c Hc)) (proj1 (proj2 (HC c Hc))))) as (N & NN & LK).
  exists N. split; [exact NN|]. intros guesses LG. destruct (LK guesses LG) as (F1 & LK1). exists F1. intros f1 Hf1. destruct (LK1 f1 Hf1) as (F2 & LK2). exists F2. intros f2 Hf2. specialize (LK2 f2 Hf2). unfold count_cones.
  destruct (decomposition_list (fueled P f1 f2) n (count_consume (fueled P f1 f2) n) 0%Q cones guesses) as [q|e]; cbn [bind]; [|exact LK2].
  destruct LK2 as (g & pss & xs & Hg & CP & M & GS & EX & CH & _). set (sh := fun _ : list Z => repeat 0 n).
  assert (LS : forall w, length (sh w) = n) by (intros w; apply repeat_length).
  assert (BR : negl n (fun x => gcoeff (gpoints points) x - lsum (map (fun c : vcone => hfun n (q_mode P) (fst (fst c)) (snd (fst c)) (vsub x (sh (snd c)))) cones))).
  { refine (negl_ext n _ _ _ (brion_points n rows vs points AV IP)). intros x Hx. cbv beta. unfold sh. rewrite (vsub_zero n x Hx), (HT x Hx). lia. }
  pose proof (residues_count n sh P cones pss xs points g (fun c Hc => conj (proj2 (HC c Hc)) (LS _)) CP M GS EX (points_len n rows points IP) BR) as GT. pose proof (count_chain g xs _ _ CH) as CC.
  assert (C : (q == qnat (length points))%Q).
  { rewrite CC, <- GT, Qplus_0_l. apply qsum_ext. intros [[[w v] d] pts] Hx. unfold ExpProofs4.value, cone_of_item, sh. cbn [fst snd e_coef e_rays e_sps]. rewrite Forall_forall in EX. destruct (EX _ Hx) as (_ & _ & _ & HP).
    assert (EM : map (zdot g) pts = map (fun p => zdot g (vadd p (repeat 0 n))) pts) by (apply map_ext_in; intros p Hp; apply HP in Hp as [Lp _]; now rewrite (vadd_zero n p Lp)). rewrite EM. reflexivity. }
  apply Qred_complete in C. unfold qnat in C. rewrite C. unfold inject_Z. rewrite qred_int. reflexivity.
Qed.
End Final.
