(** The bounds kept while cones are refined. *)
From Coq Require Import QArith Qfield Lqa.
From Verif Require Import Common SmithSpec ZMat Hermite HermiteProofs Det DetProofs RatVec RatVecSpec RatVecProofs Piped PipedSpec PipedProofs PipedProofs3 PipedProofs4 ConeSpec ConeProofs Irrational IrrationalProofs3 IntegMath Exponential ExpSpec ExpProofs ExpProofs2 ExpProofs3 ExpProofs4 CountSpec Barvinok BarvinokSpec BarvinokProofs BarvinokProofs2 BarvinokProofs3 BarvinokProofs4 P_Barvinok BrionLinear BrionProofs BrionProofs2 BrionProofs3 EulerProofs BrionProofs4 BrionProofs5 Count CountProofs CountProofs2 CountProofs3 CountProofs4 CountProofs5 Approx ApproxProofs ApproxPoints.
Open Scope Z_scope.

(** The cones that can arise from one cone. *)
Section Nodes.
Context (sv : shortvector) (omega : nat -> list (list Z) -> list Z) (ker : list (list Z) -> list Z) (n : nat).
Context (Hn : (0 < n)%nat) (KC : relation_contract ker) (OC : omega_contract omega).
Fixpoint nodes (fuel : nat) (c : bcone) : list bcone :=
  match fuel with
  | O => []
  | S f => c :: match step sv omega ker n c with
                | Ok (Some (ch, _)) => flat_map (fun o => match o with None => [] | Some c' => nodes f c' end) ch
                | _ => []
                end
  end.
Lemma child_full c ch dets c' : cone_full n (b_cone c) -> step sv omega ker n c = Ok (Some (ch, dets)) -> In (Some c') ch -> cone_full n (b_cone c') /\ Z.abs (s_det (b_cone c')) < Z.abs (s_det (b_cone c)).
Proof.
  intros FC ES HI. assert (NP : IrrationalPrimalDecomposition = DualDecomposition -> primitive_choice omega) by (intros X; discriminate X).
  assert (IC : Inv IrrationalPrimalDecomposition n c) by (split; [exact FC|intros X; discriminate X]).
  destruct (child_inv IrrationalPrimalDecomposition sv omega ker n Hn KC OC NP c ch dets c' IC ES HI) as [[F _] L]. auto.
Qed.
Lemma nodes_ok f : forall c, cone_full n (b_cone c) -> forall d, In d (nodes f c) -> cone_full n (b_cone d) /\ Z.abs (s_det (b_cone d)) <= Z.abs (s_det (b_cone c)).
Proof.
  induction f as [|f IH]; intros c FC d Hd; [destruct Hd|]. cbn [nodes] in Hd. destruct Hd as [<-|Hd]; [split; [exact FC|lia]|]. destruct (step sv omega ker n c) as [[[ch dets]|]|e] eqn:ES; [|destruct Hd|destruct Hd].
  apply in_flat_map in Hd as ([c'|] & Ho & Hd); [|destruct Hd]. destruct (child_full c ch dets c' FC ES Ho) as [F L]. destruct (IH c' F d Hd). split; [assumption|lia].
Qed.
Lemma nodes_closed f : forall c, cone_full n (b_cone c) -> Z.abs (s_det (b_cone c)) < Z.of_nat f -> forall d ch dets d', In d (nodes f c) -> step sv omega ker n d = Ok (Some (ch, dets)) -> In (Some d') ch -> In d' (nodes f c).
Proof.
  induction f as [|f IH]; intros c FC L d ch dets d' Hd ES Ho; [destruct Hd|]. cbn [nodes] in *. destruct Hd as [<-|Hd].
  - right. rewrite ES. destruct (child_full c ch dets d' FC ES Ho) as [F Ld]. apply in_flat_map. exists (Some d'). split; [exact Ho|]. destruct f as [|f]; [lia|]. cbn [nodes]. now left.
  - destruct (step sv omega ker n c) as [[[ch0 dets0]|]|e] eqn:ES0; [|destruct Hd|destruct Hd]. right. apply in_flat_map in Hd as ([c'|] & Ho' & Hd); [|destruct Hd]. destruct (child_full c ch0 dets0 c' FC ES0 Ho') as [F Ld]. apply in_flat_map. exists (Some c'). split; [exact Ho'|]. apply (IH c' F ltac:(lia) d ch dets d' Hd ES Ho).
Qed.
(** Off the walls, the children count what the parent counts. *)
Lemma step_csum v c ch dets x : cone_full n (b_cone c) -> step sv omega ker n c = Ok (Some (ch, dets)) -> ~ on_wall n v (s_rays (b_cone c)) (zpoint x) -> (forall d, In (Some d) ch -> ~ on_wall n v (s_rays (b_cone d)) (zpoint x)) ->
  csum n v (flat_map (fun o => match o with None => [] | Some d => [d] end) ch) x = csum n v [c] x.
Proof.
  intros FC ES OW OWC. destruct c as [coef c]. cbn [b_cone] in *. pose proof FC as [OK _].
  pose proof (step_spec sv omega ker n Hn KC OC coef c FC) as SS. rewrite ES in SS. destruct SS as (z & [Lz PZ] & -> & DEC & [LC CH]).
  assert (KID : forall d, In (Some d) ch -> exists k, (k < n)%nat /\ nth k ch None = Some d /\ cone_full n (b_cone d)).
  { intros d Hd. apply (In_nth _ _ None) in Hd as (k & Hk & Ek). rewrite LC in Hk. exists k. split; auto. split; auto. destruct (CH k Hk) as [C0 C1]. destruct (Z.eq_dec (det n (ent (upd (s_rays c) k z))) 0) as [Z0|NZ]; [rewrite C0 in Ek by auto; discriminate|]. destruct (C1 NZ) as (c1 & E1 & F1 & R1). rewrite E1 in Ek. injection Ek as <-. exact F1. }
  pose proof (step_count n c coef z (zpoint x) v ch Hn OK Lz PZ LC CH OW (fun k d Ek => OWC d ltac:(rewrite <- Ek; apply nth_In; destruct (Nat.lt_ge_cases k (length ch)) as [H|H]; [exact H|rewrite nth_overflow in Ek by auto; discriminate]))) as SC.
  assert (CNT : signed_count (fun r => in_cone n v r (zpoint x)) (coned ch) (if ind n v (zpoint x) c then coef else 0)).
  { rewrite <- SC, <- LC. apply signed_count_list. intros k Hk. destruct (nth k ch None) as [d|] eqn:Ek; [|reflexivity].
    assert (HI : In (Some d) ch) by (rewrite <- Ek; now apply nth_In). destruct (KID d HI) as (_ & _ & _ & [OKd _]). pose proof (ind_iff n v (zpoint x) (b_cone d) OKd) as II. rewrite LC. destruct (ind n v (zpoint x) (b_cone d)); [left; split; auto; now apply II|right; split; auto; intros H; apply II in H; discriminate]. }
  assert (E1 : csum n v (flat_map (fun o => match o with None => [] | Some d => [d] end) ch) x = (if ind n v (zpoint x) c then coef else 0)).
  { apply signed_csum; [intros d Hd; apply in_flat_map in Hd as ([d'|] & Ho & Hd); [|destruct Hd]; destruct Hd as [<-|[]]; destruct (KID d' Ho) as (_ & _ & _ & [OKd _]); exact OKd|].
    assert (EP : pairs (flat_map (fun o => match o with None => [] | Some d => [d] end) ch) = coned ch) by (clear; unfold pairs, coned; induction ch as [|[d|] ch IH]; [reflexivity| |exact IH]; cbn [flat_map app map]; now rewrite IH). rewrite EP. exact CNT. }
  rewrite E1. symmetry. apply signed_csum; [intros d [<-|[]]; exact OK|]. cbn [pairs map b_coef b_cone]. pose proof (ind_iff n v (zpoint x) c OK) as II. destruct (ind n v (zpoint x) c).
  - replace coef with (coef + 0) at 2 by lia. apply sc_in; [now apply II|constructor].
  - apply sc_out; [intros H; apply II in H; discriminate|constructor].
Qed.
End Nodes.

Definition vof (x : xitem) : rvec * bcone := (snd (fst (fst x)), snd (fst x)).
Definition val (g : list Z) (x : xitem) : Q := ExpProofs4.value g (cone_of_item g x).
Definition generic_for (g : list Z) (d : bcone) : Prop := zprodl (map (zdot g) (s_rays (b_cone d))) <> 0.
Section State.
Context (P : params) (n : nat) (size : Z) (g : list Z) (NODES : list (rvec * bcone)).
Context (Hn : (0 < n)%nat) (KC : relation_contract (q_ker P)) (OC : omega_contract (q_omega P)) (XG : xgcd_contract (q_xg P)) (Lg : length g = n).
Context (NG : forall v d, In (v, d) NODES -> usable n v /\ cone_full n (b_cone d)).
Context (NC : forall v d ch dets d', In (v, d) NODES -> step (q_sv P) (q_omega P) (q_ker P) n d = Ok (Some (ch, dets)) -> In (Some d') ch -> In (v, d') NODES).
Context (NF : forall v d, In (v, d) NODES -> Z.abs (s_det (b_cone d)) <= int_max -> exists pts, exact_points n ([], v, d, pts) /\ scalar_products (q_fuel2 P) (q_xg P) n (b_cone d) v g = Ok (map (zdot g) pts)).

Definition sh0 : list Z -> list Z := fun _ => repeat 0 n.
Definition T (D H : list xitem) (y : list Z) : Z := itot n sh0 (map fst D) y + itot n sh0 (map fst H) y.
Definition xok (st : astate) (x : xitem) : Prop := fst (fst (fst x)) = [] /\ exact_points n x /\ generic_for g (snd (fst x)) /\ In (vof x) NODES /\ In (vof x) (a_met st).
Definition hok (h : hitem) (x : xitem) : Prop := fst h = vof x /\ (fst (snd h) <= val g x)%Q /\ (val g x <= snd (snd h))%Q.
Definition st_ok (st : astate) (D H : list xitem) : Prop :=
  Forall (xok st) D /\ Forall (xok st) H /\ Forall2 hok (a_heap st) H /\
  (a_lower st == qsum (val g) D + qsum (fun h : hitem => fst (snd h)) (a_heap st))%Q /\ (a_upper st == qsum (val g) D + qsum (fun h : hitem => snd (snd h)) (a_heap st))%Q.
Lemma xok_mono st st' x : incl (a_met st) (a_met st') -> xok st x -> xok st' x.
Proof. intros I0 (A & B & C & D & E). repeat (split; [assumption|]). apply I0, E. Qed.
Lemma qsum_app_ {A} (f : A -> Q) l1 l2 : (qsum f (l1 ++ l2) == qsum f l1 + qsum f l2)%Q.
Proof. induction l1 as [|a l1 IH]; cbn [app qsum]; [ring|]. rewrite IH. ring. Qed.
Lemma itot_one v d pts y : itot n sh0 (map fst [(([], v, d, pts) : xitem)]) y = csum n (coord v) [d] (vsub y (sh0 [])).
Proof. unfold itot, csum. reflexivity. Qed.
Lemma evaluate_ok v d st D H : st_ok st D H -> In (v, d) NODES ->
  match evaluate P n size g v d st with
  | Ok st' => exists D' H', st_ok st' D' H' /\ (forall y, T D' H' y = T D H y + csum n (coord v) [d] (vsub y (sh0 []))) /\ a_met st' = a_met st ++ [(v, d)] /\ a_shown st' = a_shown st /\
      (if Z.abs (s_det (b_cone d)) <=? q_max_det P then a_heap st' = a_heap st else exists b, a_heap st' = a_heap st ++ [(v, d, b)])
  | Err e => e = Thrown /\ ~ generic_for g d \/ e = Exited /\ int_max < q_max_det P \/ e = AssertFail /\ size <= Z.of_nat (length (a_heap st))
  end.
Proof.
  intros (XD & XH & HH & EL & EU) HN. destruct (NG v d HN) as [UV FC]. pose proof FC as [OK _]. pose proof OK as ((LR & _) & _). unfold evaluate.
  assert (MONO : forall st' l, incl (a_met st) (a_met st') -> Forall (xok st) l -> Forall (xok st') l) by (intros st' l I0; apply Forall_impl; intros x; apply xok_mono, I0).
  destruct (Z.eq_dec (zprodl (map (zdot g) (s_rays (b_cone d)))) 0) as [Z0|NZ].
  { destruct (Z.leb_spec (Z.abs (s_det (b_cone d))) (q_max_det P)); [rewrite (proj2 (weights_thrown g _) Z0); cbn [bind]; left; split; [reflexivity|intros G; exact (G Z0)]|].
    unfold cone_bounds. rewrite (proj2 (weights_thrown g _) Z0). cbn [bind]. left. split; [reflexivity|intros G; exact (G Z0)]. }
  destruct (Z.leb_spec (Z.abs (s_det (b_cone d))) (q_max_det P)) as [SM|BG].
  - destruct (weights_ok g (s_rays (b_cone d)) NZ) as (wt & EW & _). rewrite EW. cbn [bind]. destruct (Z.le_gt_cases (Z.abs (s_det (b_cone d))) int_max) as [B|B].
    + destruct (NF v d HN B) as (pts & EP & ES). rewrite ES. cbn [bind]. destruct (single_ok n g (mkE (b_coef d) (s_rays (b_cone d)) (map (zdot g) pts) 0)) as (q & Eq & Vq); [exact NZ|cbn [e_rays]; lia|]. rewrite Eq. cbn [bind].
      assert (I0 : incl (a_met st) (a_met st ++ [(v, d)])) by (apply incl_appl, incl_refl).
      assert (Vx : (q == val g ([], v, d, pts))%Q) by (unfold val, ExpProofs4.value, cone_of_item; cbn [e_coef e_rays e_sps] in *; rewrite Vq; reflexivity).
      exists (D ++ [([], v, d, pts)]), H. split; [|split; [|split; [|split]]].
      * split; [|split; [|split; [|split]]]; cbn [a_met a_heap a_lower a_upper].
        -- apply Forall_app. split; [apply MONO; [exact I0|exact XD]|]. apply Forall_cons; [|constructor]. split; [reflexivity|]. split; [exact EP|]. split; [exact NZ|]. split; [exact HN|]. cbn [a_met]. apply in_app_iff. right. now left.
        -- apply MONO; [exact I0|exact XH].
        -- exact HH.
        -- rewrite qsum_app_, EL, Vx. cbn [qsum]. ring.
        -- rewrite qsum_app_, EU, Vx. cbn [qsum]. ring.
      * intros y. unfold T. rewrite map_app, itot_app, itot_one. lia.
      * reflexivity.
      * reflexivity.
      * reflexivity.
    + rewrite (scalar_products_big _ _ _ _ _ _ B). cbn [bind]. right. left. split; [reflexivity|lia].
  - destruct UV as [RV Dv]. destruct (piped_points (q_xg P) n (b_cone d) v XG Hn OK RV Dv) as (pts & ND & IN & LN).
    pose proof (bounds_enclose n g v d pts (conj RV Dv) Lg LR (fun p Hp => proj1 (IN p) Hp) LN) as BE. destruct (cone_bounds n g v d) as [b|e]; cbn [bind]; [|destruct BE as [_ Z0]; contradiction]. destruct BE as [_ [B1 B2]].
    destruct (Z.ltb_spec (Z.of_nat (length (a_heap st))) size) as [R|R]; [|right; right; split; [reflexivity|lia]].
    assert (I0 : incl (a_met st) (a_met st ++ [(v, d)])) by (apply incl_appl, incl_refl).
    exists D, (H ++ [([], v, d, pts)]). split; [|split; [|split; [|split]]].
    + split; [|split; [|split; [|split]]]; cbn [a_met a_heap a_lower a_upper].
      * apply MONO; [exact I0|exact XD].
      * apply Forall_app. split; [apply MONO; [exact I0|exact XH]|]. apply Forall_cons; [|constructor]. split; [reflexivity|]. split; [exact (conj (conj RV Dv) (conj OK (conj ND IN)))|]. split; [exact NZ|]. split; [exact HN|]. cbn [a_met]. apply in_app_iff. right. now left.
      * apply Forall2_app; [exact HH|]. constructor; [|constructor]. split; [reflexivity|]. cbn [fst snd]. split; assumption.
      * rewrite qsum_app_, EL. cbn [qsum fst snd]. ring.
      * rewrite qsum_app_, EU. cbn [qsum fst snd]. ring.
    + intros y. unfold T. rewrite map_app, itot_app, itot_one. lia.
    + reflexivity.
    + reflexivity.
    + eexists. reflexivity.
Qed.
(** The number of points is enclosed. *)
Lemma enclosed st D H : st_ok st D H -> (a_lower st <= qsum (val g) D + qsum (val g) H /\ qsum (val g) D + qsum (val g) H <= a_upper st)%Q.
Proof.
  intros (_ & _ & HH & EL & EU).
  assert (G : (qsum (fun h : hitem => fst (snd h)) (a_heap st) <= qsum (val g) H /\ qsum (val g) H <= qsum (fun h : hitem => snd (snd h)) (a_heap st))%Q).
  { clear EL EU. induction HH as [|h x hs xs (_ & B1 & B2) HH IH]; cbn [qsum]; [split; lra|]. destruct IH. split; lra. }
  rewrite EL, EU. destruct G. split; lra.
Qed.
(** Removing one cone from the heap. *)
Lemma remove_ok st D H k v d b : st_ok st D H -> nth_error (a_heap st) k = Some (v, d, b) ->
  exists H1 x H2, H = H1 ++ x :: H2 /\ vof x = (v, d) /\
  st_ok (mkA (a_lower st - fst b) (a_upper st - snd b) (firstn k (a_heap st) ++ skipn (S k) (a_heap st)) (a_met st) (a_shown st ++ [(a_lower st, a_upper st)])) D (H1 ++ H2).
Proof.
  intros (XD & XH & HH & EL & EU) E. apply nth_error_split in E as (l1 & l2 & EH & EK). rewrite EH in HH. apply Forall2_app_inv_l in HH as (H1 & Hx & HH1 & HHx & EH2). inversion HHx as [|h x hs H2 Hhx HH2 E1 E2]. subst Hx. exists H1, x, H2. split; [exact EH2|]. destruct Hhx as (Ev & B1 & B2). cbn [fst snd] in *. split; [now symmetry|].
  assert (ER : firstn k (a_heap st) ++ skipn (S k) (a_heap st) = l1 ++ l2). { rewrite EH, <- EK. f_equal; [now rewrite firstn_app, Nat.sub_diag, firstn_all, firstn_O, app_nil_r|]. rewrite skipn_app. rewrite skipn_all2 by lia. replace (S (length l1) - length l1)%nat with 1%nat by lia. reflexivity. }
  rewrite ER. rewrite EH2 in XH. apply Forall_app in XH as [XH1 XH2]. inversion XH2 as [|y0 l0 Xx XH2' E3]. subst y0 l0. rewrite EH in EL, EU. rewrite qsum_app_ in EL, EU. cbn [qsum fst snd] in EL, EU.
  split; [|split; [|split; [|split]]]; cbn [a_heap a_lower a_upper].
  - revert XD. apply Forall_impl. intros x0. apply xok_mono, incl_refl.
  - apply Forall_app. split; [revert XH1|revert XH2']; apply Forall_impl; intros x0; apply xok_mono, incl_refl.
  - apply Forall2_app; assumption.
  - rewrite qsum_app_, EL. ring.
  - rewrite qsum_app_, EU. ring.
Qed.
Definition children_list (ch : list (option bcone)) : list bcone := flat_map (fun o => match o with None => [] | Some d => [d] end) ch.
Lemma children_ok v ch : (forall d, In (Some d) ch -> In (v, d) NODES) -> forall st D H st', st_ok st D H -> evaluate_children P n size g v ch st = Ok st' ->
  exists D' H', st_ok st' D' H' /\ (forall y, T D' H' y = T D H y + csum n (coord v) (children_list ch) (vsub y (sh0 []))) /\ incl (a_met st) (a_met st') /\ a_shown st' = a_shown st /\ forall d, In (Some d) ch -> In (v, d) (a_met st').
Proof.
  unfold evaluate_children. induction ch as [|o ch IH]; intros HI st D H st' SO E; cbn [fold_out] in E.
  - injection E as <-. exists D, H. split; [exact SO|]. split; [intros y; unfold csum; cbn; lia|]. split; [apply incl_refl|]. split; [reflexivity|]. intros d [].
  - destruct o as [d|]; cbn [bind] in E.
    + pose proof (evaluate_ok v d st D H SO (HI d (or_introl eq_refl))) as EV. destruct (evaluate P n size g v d st) as [st1|e]; cbn [bind] in E; [|discriminate]. destruct EV as (D1 & H1 & SO1 & T1 & M1 & S1 & _).
      destruct (IH (fun d' Hd => HI d' (or_intror Hd)) st1 D1 H1 st' SO1 E) as (D2 & H2 & SO2 & T2 & I2 & S2 & M2). exists D2, H2. split; [exact SO2|]. split; [|split; [|split]].
      * intros y. rewrite T2, T1. unfold children_list. cbn [flat_map]. rewrite csum_app. fold (children_list ch). lia.
      * intros z Hz. apply I2. rewrite M1. apply in_app_iff. now left.
      * congruence.
      * intros d' [E'|Hd]; [injection E' as <-; apply I2; rewrite M1; apply in_app_iff; right; now left|auto].
    + destruct (IH (fun d' Hd => HI d' (or_intror Hd)) st D H st' SO E) as (D2 & H2 & SO2 & T2 & I2 & S2 & M2). exists D2, H2. split; [exact SO2|]. split; [exact T2|]. split; [exact I2|]. split; [exact S2|]. intros d' [E'|Hd]; [discriminate|auto].
Qed.
Definition off_walls (met : list (rvec * bcone)) : Prop := forall v d x, In (v, d) met -> ~ on_wall n (coord v) (s_rays (b_cone d)) (zpoint x).
Lemma refine_met pick f : forall st D H st', st_ok st D H -> refine f P n size g pick st = Ok st' -> incl (a_met st) (a_met st').
Proof.
  induction f as [|f IH]; intros st D H st' SO E; [discriminate|]. cbn [refine] in E. destruct (a_heap st) as [|h0 hs] eqn:EH; [injection E as <-; apply incl_refl|]. rewrite <- EH in E. destruct (nth_error (a_heap st) (pick st)) as [[[v d] b]|] eqn:EN; [|discriminate].
  destruct (remove_ok st D H _ v d b SO EN) as (H1 & x & H2 & EH2 & Vx & SO1). destruct (step (q_sv P) (q_omega P) (q_ker P) n d) as [r|e] eqn:ES; cbn [bind] in E; [|discriminate].
  assert (HN : In (v, d) NODES). { destruct SO as (_ & XH & _). rewrite Forall_forall in XH. rewrite <- Vx. apply (XH x). rewrite EH2. apply in_app_iff. right. now left. }
  destruct r as [[ch dets]|].
  - match type of E with bind ?X _ = _ => destruct X as [st2|e] eqn:EC end; cbn [bind] in E; [|discriminate]. destruct (children_ok v ch (fun d' Hd => NC v d ch dets d' HN ES Hd) _ _ _ _ SO1 EC) as (D2 & H3 & SO2 & _ & I2 & _). specialize (IH st2 D2 H3 st' SO2 E). intros z Hz. apply IH, I2, Hz.
  - cbn [bind] in E. specialize (IH _ _ _ st' SO1 E). exact IH.
Qed.
Context (tot : list Z -> Z) (N : Q) (LLL : q_sv P = LatteLLL).
Context (CNT : forall D H, (forall x, In x (D ++ H) -> exact_points n x /\ generic_for g (snd (fst x))) -> (forall y, length y = n -> T D H y = tot y) -> (qsum (val g) D + qsum (val g) H == N)%Q).
Lemma st_count st D H : st_ok st D H -> (forall y, length y = n -> T D H y = tot y) -> (qsum (val g) D + qsum (val g) H == N)%Q.
Proof. intros (XD & XH & _) HT. apply CNT; [|exact HT]. intros x Hx. apply in_app_iff in Hx as [Hx|Hx]; [rewrite Forall_forall in XD; destruct (XD x Hx) as (_ & A & B & _)|rewrite Forall_forall in XH; destruct (XH x Hx) as (_ & A & B & _)]; auto. Qed.
Definition encl (p : Q * Q) : Prop := (fst p <= N /\ N <= snd p)%Q.
Lemma refine_ok pick f : forall st D H st', st_ok st D H -> (forall y, length y = n -> T D H y = tot y) -> Forall encl (a_shown st) -> refine f P n size g pick st = Ok st' -> off_walls (a_met st') ->
  Forall encl (a_shown st') /\ (a_lower st' == N /\ a_upper st' == N)%Q.
Proof.
  induction f as [|f IH]; intros st D H st' SO HT FS E OW; [discriminate|]. pose proof (refine_met pick (S f) st D H st' SO E) as IM. cbn [refine] in E. destruct (a_heap st) as [|h0 hs] eqn:EH.
  - injection E as <-. split; [exact FS|]. pose proof (st_count st D H SO HT) as C. destruct SO as (_ & _ & HH & EL & EU). rewrite EH in HH, EL, EU. inversion HH; subst. cbn [qsum] in *. rewrite EL, EU. split; lra.
  - rewrite <- EH in E. destruct (nth_error (a_heap st) (pick st)) as [[[v d] b]|] eqn:EN; [|discriminate].
    destruct (remove_ok st D H _ v d b SO EN) as (H1 & x & H2 & EH2 & Vx & SO1). destruct (step (q_sv P) (q_omega P) (q_ker P) n d) as [r|e] eqn:ES; cbn [bind] in E; [|discriminate].
    assert (XX : xok st x). { destruct SO as (_ & XH & _). rewrite Forall_forall in XH. apply (XH x). rewrite EH2. apply in_app_iff. right. now left. } destruct XX as (Wx & _ & _ & HN & MX). rewrite Vx in HN, MX.
    assert (R : r <> None). { intros ->. unfold step in ES. destruct (facet_matrix (b_cone d)); cbn [bind] in ES; [|discriminate]. rewrite LLL in ES. destruct (dets_decrease _ _); [destruct (children _ _ _ _ _ _ _); discriminate|]. destruct (dets_decrease _ _); [destruct (children _ _ _ _ _ _ _); discriminate|discriminate]. }
    destruct r as [[ch dets]|]; [|contradiction].
    match type of E with bind ?X _ = _ => destruct X as [st2|e] eqn:EC end; cbn [bind] in E; [|discriminate]. destruct (children_ok v ch (fun d' Hd => NC v d ch dets d' HN ES Hd) _ _ _ _ SO1 EC) as (D2 & H3 & SO2 & T2 & I2 & S2 & M2).
    pose proof (refine_met pick f st2 D2 H3 st' SO2 E) as IM2. refine (IH st2 D2 H3 st' SO2 _ _ E OW).
    + intros y Ly. rewrite T2, <- (HT y Ly). unfold children_list. unfold sh0 at 1. rewrite (vsub_zero n y Ly).
      rewrite (step_csum (q_sv P) (q_omega P) (q_ker P) n Hn KC OC (coord v) d ch dets y (proj2 (NG v d HN)) ES (OW v d y (IM _ MX)) (fun d' Hd => OW v d' y (IM2 _ (M2 d' Hd)))).
      unfold T. rewrite EH2. destruct x as [[[w0 v0] d0] p0]. cbn [fst snd vof] in *. injection Vx as -> ->. subst w0. pose proof (itot_one v d p0 y) as IO. unfold sh0 at 2 in IO. rewrite (vsub_zero n y Ly) in IO. rewrite <- IO.
      change (([], v, d, p0) :: H2) with ([(([], v, d, p0) : xitem)] ++ H2). rewrite !map_app, !itot_app. lia.
    + rewrite S2. cbn [a_shown]. apply Forall_app. split; [exact FS|]. apply Forall_cons; [|constructor]. unfold encl. cbn [fst snd]. rewrite <- (st_count st D H SO HT). exact (enclosed st D H SO).
Qed.
End State.
