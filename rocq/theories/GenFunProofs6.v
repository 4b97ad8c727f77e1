(** Proofs about GenFun: the text stands for the generating function of the polyhedron. *)
From Coq Require Import QArith Qpower Qfield Lqa String.
From Verif Require Import Common SmithSpec ZMat Hermite HermiteProofs Det DetProofs RatVec RatVecSpec RatVecProofs Piped PipedSpec PipedProofs PipedProofs3 PipedProofs4 ConeSpec ConeProofs Irrational IrrationalProofs IrrationalProofs2 IrrationalProofs3 IntegMath Series DecompProofs Exponential ExpSpec ExpProofs ExpProofs2 ExpProofs3 CountSpec Barvinok BarvinokSpec BarvinokProofs BarvinokProofs2 BarvinokProofs3 BarvinokProofs4 P_Barvinok BrionLinear BrionProofs BrionProofs2 BrionProofs3 EulerProofs BrionProofs4 BrionProofs5 Count CountProofs CountProofs2 CountProofs3 CountProofs4 CountProofs5 Text GenFun GenFunSpec GenFunProofs GenFunProofs2 GenFunProofs3 GenFunProofs4 GenFunProofs5.
Open Scope Z_scope.

(** ** Projecting up *)
Definition column (d : nat) (AA : list (list Z)) (j : nat) : list Z := map (fun i => nth j (nth i AA []) 0) (seq 0 d).
Lemma monomial_pow n : forall x v k, defined_at n x -> length v = n -> (monomial x (map (fun a => (a * k)%Z) v) == monomial x v ^ k)%Q.
Proof.
  induction n as [|n IH]; intros x [|a v] k D L; cbn [length] in L; try lia; cbn [map monomial].
  - now rewrite Qpower_1.
  - rewrite IH by (try apply defined_tail; auto; lia). rewrite Qmult_power, Qpower_mult. reflexivity.
Qed.
Lemma zdot_cons a c e r : zdot (a :: c) (e :: r) = a * e + zdot c r.
Proof.
  unfold zdot. cbn [length]. assert (H : forall m f, zsum (S m) f = f 0%nat + zsum m (fun k => f (S k))); [|now rewrite H].
  clear. induction m as [|m IH]; intros f; [cbn; lia|]. change (zsum (S (S m)) f) with (zsum (S m) f + f (S m)). rewrite IH. cbn [zsum]. lia.
Qed.
Lemma vadd_map_seq (f g : nat -> Z) d : vadd (map f (seq 0 d)) (map g (seq 0 d)) = map (fun i => f i + g i) (seq 0 d).
Proof. generalize 0%nat. induction d as [|d IH]; intros s; [reflexivity|]. cbn [seq map vadd]. now rewrite IH. Qed.
Lemma project_monomial d X r : defined_at d X -> forall AA, length AA = d -> Forall (fun c => length c = length r) AA -> (monomial X (project_ray d AA r) == monomial (fun j => monomial X (column d AA j)) r)%Q.
Proof.
  intros D. induction r as [|e r IH]; intros AA LA W.
  - cbn [monomial]. unfold project_ray. rewrite (map_ext_in _ (fun _ => 0)).
    + assert (E : forall s k, map (fun _ : nat => 0) (seq s k) = repeat 0 k) by (intros s k; revert s; induction k as [|k IH]; intros s; [reflexivity|]; cbn [seq map repeat]; now rewrite IH). rewrite E. apply monomial_zero.
    + intros i Hi. apply in_seq in Hi. rewrite Forall_forall in W. assert (L : length (nth i AA []) = 0%nat) by (apply W, nth_In; lia). unfold zdot. now rewrite L.
  - assert (LC : forall i, (i < d)%nat -> exists a c, nth i AA [] = a :: c /\ length c = length r).
    { intros i Hi. rewrite Forall_forall in W. assert (L : length (nth i AA []) = S (length r)) by (apply W, nth_In; lia). destruct (nth i AA []) as [|a c]; [discriminate|]. exists a, c. split; [reflexivity|]. cbn [length] in L. lia. }
    assert (NT : forall i, nth i (map (@tl Z) AA) [] = tl (nth i AA [])) by (intros i; exact (map_nth (@tl Z) AA [] i)).
    assert (E : project_ray d AA (e :: r) = vadd (map (fun a => a * e) (column d AA 0)) (project_ray d (map (@tl Z) AA) r)).
    { unfold project_ray, column. rewrite map_map, vadd_map_seq. apply map_ext_in. intros i Hi. apply in_seq in Hi. destruct (LC i ltac:(lia)) as (a & c & Ei & _). rewrite NT, Ei, zdot_cons. reflexivity. }
    rewrite E. rewrite (monomial_vadd d) by (first [exact D|unfold project_ray, column; rewrite ?map_length, ?seq_length; reflexivity]).
    rewrite (monomial_pow d) by (first [exact D|unfold column; rewrite ?map_length, ?seq_length; reflexivity]).
    rewrite IH; [|now rewrite map_length|].
    + cbn [monomial]. apply Qmult_comp; [reflexivity|]. apply monomial_ext. intros k Hk. unfold column. rewrite (map_ext_in (fun i => nth k (nth i (map (@tl Z) AA) []) 0) (fun i => nth (S k) (nth i AA []) 0)); [reflexivity|]. intros i Hi. rewrite NT. destruct (nth i AA []) as [|a c]; [destruct k; reflexivity|reflexivity].
    + apply Forall_map. revert W. apply Forall_impl. intros c Hc. destruct c; cbn [length tl] in *; lia.
Qed.
Lemma point_monomial d X p AA b : defined_at d X -> length AA = d -> length b = d -> Forall (fun c => length c = length p) AA -> (monomial X (project_point d AA b p) == monomial X b * monomial (fun j => monomial X (column d AA j)) p)%Q.
Proof.
  intros D LA Lb W. rewrite <- (project_monomial d X p D AA LA W).
  assert (E : project_point d AA b p = vadd b (project_ray d AA p)).
  { unfold project_point, project_ray. rewrite <- vadd_map_seq. f_equal. rewrite <- Lb. clear. apply nth_ext with (d := 0) (d' := 0); [now rewrite map_length, seq_length|]. intros k Hk. rewrite map_length, seq_length in Hk. rewrite nth_map_seq by exact Hk. reflexivity. }
  rewrite E. apply (monomial_vadd d); [exact D|exact Lb|unfold project_ray; now rewrite map_length, seq_length].
Qed.
Definition project_cone (d : nat) (AA : list (list Z)) (b : list Z) (c : gcone) : gcone := (fst (fst c), map (project_ray d AA) (snd (fst c)), map (project_point d AA b) (snd c)).
(** The monomials of the columns of AA. *)
Definition pulled (d : nat) (AA : list (list Z)) (X : nat -> Q) (j : nat) : Q := monomial X (column d AA j).
Lemma pulled_domain n d AA b X cs : length AA = d -> Forall (fun c => length c = n) AA -> Forall (printable n) cs -> in_domain d (map (project_cone d AA b) cs) X -> in_domain n cs (pulled d AA X).
Proof.
  intros LA W PR [D R]. split.
  - intros j _. unfold pulled. apply (monomial_nz _ d); [exact D|unfold column; now rewrite map_length, seq_length].
  - intros c r Hc Hr E. apply (R (project_cone d AA b c) (project_ray d AA r)).
    + now apply in_map.
    + cbn [project_cone fst snd]. now apply in_map.
    + rewrite (project_monomial d X r D AA LA); [exact E|]. rewrite Forall_forall in PR. specialize (PR c Hc). destruct c as [[k rays] pts]. destruct PR as (_ & _ & PR & _). cbn [fst snd] in Hr. rewrite Forall_forall in PR. rewrite (PR r Hr). exact W.
Qed.
Lemma project_points n d AA b X ps : defined_at d X -> length AA = d -> length b = d -> Forall (fun c => length c = n) AA -> Forall (fun p => length p = n) ps ->
  (point_sum X (map (project_point d AA b) ps) == monomial X b * point_sum (pulled d AA X) ps)%Q.
Proof.
  intros D LA Lb W. induction 1 as [|p ps Hp H IH]; [unfold point_sum; cbn [map fold_right]; ring|].
  change (point_sum X (map (project_point d AA b) (p :: ps))) with (monomial X (project_point d AA b p) + point_sum X (map (project_point d AA b) ps))%Q.
  change (point_sum (pulled d AA X) (p :: ps)) with (monomial (pulled d AA X) p + point_sum (pulled d AA X) ps)%Q.
  rewrite IH, (point_monomial d X p AA b D LA Lb) by (rewrite Hp; exact W). unfold pulled. ring.
Qed.
Lemma project_rays n d AA X rs : defined_at d X -> length AA = d -> Forall (fun c => length c = n) AA -> Forall (fun p => length p = n) rs ->
  (ray_product X (map (project_ray d AA) rs) == ray_product (pulled d AA X) rs)%Q.
Proof.
  intros D LA W. induction 1 as [|p ps Hp H IH]; [reflexivity|].
  change (ray_product X (map (project_ray d AA) (p :: ps))) with ((1 - monomial X (project_ray d AA p)) * ray_product X (map (project_ray d AA) ps))%Q.
  change (ray_product (pulled d AA X) (p :: ps)) with ((1 - monomial (pulled d AA X) p) * ray_product (pulled d AA X) ps)%Q.
  rewrite IH, (project_monomial d X p D AA LA) by (rewrite Hp; exact W). reflexivity.
Qed.
Lemma project_value n d AA b X cs : defined_at d X -> length AA = d -> length b = d -> Forall (fun c => length c = n) AA -> Forall (printable n) cs ->
  (rational_value X (map (project_cone d AA b) cs) == monomial X b * rational_value (pulled d AA X) cs)%Q.
Proof.
  intros D LA Lb W. induction 1 as [|c cs Hc H IH]; [unfold rational_value; cbn [map fold_right]; ring|]. cbn [map].
  change (project_cone d AA b c :: map (project_cone d AA b) cs) with ([project_cone d AA b c] ++ map (project_cone d AA b) cs). change (c :: cs) with ([c] ++ cs).
  rewrite !rational_app, !rational_one, IH. destruct c as [[k rays] pts]. destruct Hc as (_ & _ & WR & WP). cbn [project_cone fst snd cone_value].
  rewrite (project_points n), (project_rays n) by assumption. unfold Qdiv. ring.
Qed.

(** ** The main result *)
Lemma inv_stands n cs st : text_inv n cs st -> Forall (fun c => snd c <> []) cs -> stands n (fst st) cs.
Proof.
  intros HI NE. destruct cs as [|c cs].
  - left. destruct HI as [[_ ->]|[H _]]; [auto|exfalso; apply H; constructor].
  - right. apply (text_reads n _ _ HI). intros H. apply (Forall_inv NE), (Forall_inv H).
Qed.
Definition sound_cone (n : nat) (c : gcone) : Prop := printable n c /\ snd c <> [] /\ (forall r, In r (snd (fst c)) -> exists k, (k < n)%nat /\ nth k r 0 <> 0) /\ (length (snd (fst c)) <= n)%nat.
Section Main.
Context (P : params) (n : nat) (pj : option projector) (rows : list (list Z)) (vs : list (nat -> Q)) (cones : list vcone).
Context (Hn : (0 < n)%nat) (KC : relation_contract (q_ker P)) (OC : omega_contract (q_omega P)) (PC : q_mode P = DualDecomposition -> primitive_choice (q_omega P)) (Hmax : 0 <= q_max_det P) (XG : xgcd_contract (q_xg P)).
Context (HC : forall c, In c cones -> usable n (fst (fst c)) /\ triangulates n (snd (fst c)) (q_tri P (snd (fst c)))).
Context (AV : all_vertices n rows vs) (NV : vs <> []) (PJ : pj_ok P pj).
Context (HT : forall x, length x = n -> lsum (map (fun c : vcone => hfun n (q_mode P) (fst (fst c)) (snd (fst c)) x) cones) = lsum (map (fun v => Tind n rows v x) vs)).
Lemma ray_nonzero d r : cone_ok n (b_cone d) -> In r (s_rays (b_cone d)) -> exists k, (k < n)%nat /\ nth k r 0 <> 0.
Proof.
  intros OK Hr. destruct OK as ((LR & FR) & ED & D0 & _). destruct (existsb (fun k => negb (nth k r 0 =? 0)) (seq 0 n)) eqn:EX.
  - apply existsb_exists in EX as (k & Hk & Ek). apply in_seq in Hk. exists k. split; [lia|]. now apply negb_true_iff, Z.eqb_neq in Ek.
  - exfalso. apply (In_nth _ _ []) in Hr as (i & Hi' & Ei). rewrite LR in Hi'. assert (LI : lin_indep n (s_rays (b_cone d))) by (apply det_indep; now rewrite <- ED).
    pose proof (LI (fun k => if Nat.eqb k i then 1 else 0)) as L0. assert (L1 : (if Nat.eqb i i then 1 else 0) = 0); [|rewrite Nat.eqb_refl in L1; discriminate]. apply L0; [|exact Hi']. intros j Hj. rewrite sumz_zsum, (zsum_single n _ i Hi') by (intros k Hk NE; rewrite (proj2 (Nat.eqb_neq k i) NE); ring). rewrite Nat.eqb_refl, Z.mul_1_l. unfold vat. rewrite Ei.
    destruct (Z.eq_dec (nth j r 0) 0) as [E0|N0]; [exact E0|]. assert (X : existsb (fun k => negb (nth k r 0 =? 0)) (seq 0 n) = true); [|congruence]. apply existsb_exists. exists j. split; [apply in_seq; lia|]. now apply negb_true_iff, Z.eqb_neq.
Qed.
Theorem generating_main : exists F1, forall f1, (F1 <= f1)%nat -> exists F2, forall f2, (F2 <= f2)%nat ->
  match generating_cones (fueled P f1 f2) n pj cones with
  | Ok t => exists cs, Forall (sound_cone n) cs /\
      match pj with None => stands n t cs | Some (d, AA, b) => Forall (fun c => length (snd c) = 1%nat) cs /\ stands d t (map (project_cone d AA b) cs) end /\
      expands n cs (Ind n rows) /\
      forall points, integer_points n rows points -> forall x, in_domain n cs x -> (rational_value x cs == point_sum x points)%Q
  | Err e => failure n P e
  end.
Proof.
  destruct (one_pass (text * bool) P n (fun P' => write_one P' n pj) (write_upd P pj) cones Hn KC OC PC Hmax (write_consumer P n pj Hn XG PJ) (fun c Hc => conj (proj1 (HC c Hc)) (proj1 (proj2 (HC c Hc)))) ([], true)) as (F1 & H1).
  exists F1. intros f1 Hf1. destruct (H1 f1 Hf1) as (F2 & H2). exists F2. intros f2 Hf2. specialize (H2 f2 Hf2). clear H1. unfold generating_cones.
  destruct (cones_loop (fueled P f1 f2) n (fun _ => 1) (write_one (fueled P f1 f2) n pj) cones ([], true)) as [[st|]|e]; cbn [bind]; [|contradiction|exact H2].
  destruct H2 as (pss & xs & CP & M & EX & CH). set (sh := fun _ : list Z => repeat 0 n).
  assert (LS : forall w, length (sh w) = n) by (intros w; apply repeat_length).
  assert (UX : forall x, In x xs -> let '(_, _, d, pts) := x in small P d /\ Z.of_nat (length pts) = Z.abs (s_det (b_cone d))).
  { intros x Hx. destruct (chain_forall _ _ _ _ CH x Hx) as (a & b & U0). destruct x as [[[w v] d] pts]. exact (conj (proj1 U0) (proj1 (proj2 U0))). }
  assert (EG : map (gcone_of sh) xs = map cone_of xs).
  { apply map_ext_in. intros [[[w v] d] pts] Hx. cbn [gcone_of cone_of]. f_equal. rewrite <- (map_id pts) at 2. apply map_ext_in. intros p Hp. rewrite Forall_forall in EX. destruct (EX _ Hx) as (_ & _ & _ & HP). apply HP in Hp as [Lp _]. exact (vadd_zero n p Lp). }
  assert (SND : Forall (sound_cone n) (map cone_of xs)).
  { apply Forall_map, Forall_forall. intros [[[w v] d] pts] Hx. pose proof (UX _ Hx) as [SM LN]. rewrite Forall_forall in EX. specialize (EX _ Hx). split; [exact (exact_printable n w v d pts Hn EX (proj1 SM))|]. destruct EX as (_ & OK & _).
    split; [cbn [cone_of snd]; intros ->; cbn [length] in LN; destruct OK as (_ & _ & D0 & _); lia|]. cbn [cone_of fst snd]. split; [intros r Hr; exact (ray_nonzero d r OK Hr)|]. destruct OK as ((LR & _) & _). lia. }
  assert (OKI : forall i, In i (flat_map (fun cp => flat_map (items_of (snd (fst cp))) (snd cp)) (List.combine cones pss)) -> cone_ok n (b_cone (snd i))).
  { intros i Hi. rewrite <- M in Hi. apply in_map_iff in Hi as ([[[w v] d] pts] & <- & Hx). rewrite Forall_forall in EX. destruct (EX _ Hx) as (_ & OK & _). exact OK. }
  assert (MT : Forall (matches n) (map (fun y => (gcone_of sh y, lfun_of n sh y)) xs)).
  { apply Forall_map, Forall_forall. intros [[[w v] d] pts] Hx. rewrite Forall_forall in EX. exact (item_matches n sh w v d pts (EX _ Hx) (LS w)). }
  assert (MF : map fst (map (fun y => (gcone_of sh y, lfun_of n sh y)) xs) = map cone_of xs) by (rewrite map_map; exact EG).
  pose proof (cones_sum n sh P cones pss (fun c Hc => conj (proj2 (HC c Hc)) (LS _)) CP OKI) as CS.
  assert (NG : negl n (fun x => Ind n rows x - itot n sh (map fst xs) x)).
  { destruct AV as (V1 & V2 & V3). pose proof (brion_lattice n rows vs (vertices_nodup n vs V3) V1 V2) as BR. rewrite M. refine (negl_ext n _ _ _ (negl_add n _ _ BR (negl_scale n (-1) _ CS))). intros x Hx. cbv beta. unfold sh. rewrite (lsum_ext _ (fun c : vcone => hfun n (q_mode P) (fst (fst c)) (snd (fst c)) x)) by (intros c _; now rewrite (vsub_zero n x Hx)). rewrite (HT x Hx). lia. }
  assert (GC : Forall (gc_ok n) (map cone_of xs)) by (rewrite <- MF; now apply matches_ok).
  exists (map cone_of xs). split; [exact SND|]. split; [|split].
  - pose proof (write_chain P pj xs _ _ CH) as FD. assert (PR : Forall (printable n) (map cone_of xs)) by (revert SND; apply Forall_impl; intros c (H & _); exact H). assert (NE : Forall (fun c : gcone => snd c <> []) (map cone_of xs)) by (revert SND; apply Forall_impl; intros c (_ & H & _); exact H).
    destruct pj as [[[d AA] b]|].
    + destruct PJ as (Hd & LA & Lb & M1 & NS).
      assert (L1 : Forall (fun c : gcone => length (snd c) = 1%nat) (map cone_of xs)).
      { apply Forall_map, Forall_forall. intros [[[w v] d'] pts] Hx. pose proof (UX _ Hx) as [SM LN]. rewrite Forall_forall in EX. destruct (EX _ Hx) as (_ & OK & _). cbn [cone_of snd]. destruct OK as (_ & _ & D0 & _). destruct SM as (_ & [SM|[SM|SM]]); [rewrite SM in M1; discriminate| |contradiction]. lia. }
      split; [exact L1|].
      assert (F2' : Forall2 (fun c c' => project_up d AA b c = Ok c' ) (map cone_of xs) (map (project_cone d AA b) (map cone_of xs)) /\ Forall (printable d) (map (project_cone d AA b) (map cone_of xs))).
      { clear -PR L1 Hd LA Lb. induction (map cone_of xs) as [|c l IH]; [split; constructor|]. destruct (IH (Forall_inv_tail PR) (Forall_inv_tail L1)) as [I1 I2]. destruct (project_printable n d AA b c Hd LA Lb (Forall_inv PR) (Forall_inv L1)) as (c' & E & PR' & ->). split; constructor; assumption. }
      destruct F2' as [F2' PR']. rewrite (deliver_some d AA b _ _ _ F2') in FD. destruct (text_all d _ PR' [] ([], true) (or_introl (conj (Forall_nil _) eq_refl))) as (st' & E & TI). rewrite E in FD. injection FD as <-. cbn [app] in TI.
      apply (inv_stands d _ _ TI). apply Forall_map. revert NE. apply Forall_impl. intros c Hc. cbn [project_cone snd]. destruct (snd c); [congruence|discriminate].
    + destruct (text_all n _ PR [] ([], true) (or_introl (conj (Forall_nil _) eq_refl))) as (st' & E & TI). change (feed (deliver None)) with (feed write_consume) in FD. rewrite E in FD. injection FD as <-. cbn [app] in TI. exact (inv_stands n _ _ TI NE).
  - rewrite <- MF. destruct vs as [|v vs']; [congruence|]. apply (expands_from_negl n (lins n rows v)); [apply vertex_separating, AV; now left|apply ind_low|exact MT|]. revert NG. apply negl_ext. intros x _. now rewrite total_itot.
  - intros points IP x DX. apply (generates_value n); [exact GC|exact (points_len n rows points IP)| |exact DX]. rewrite <- EG. apply (items_generate n sh xs points EX (fun _ _ => LS _) (points_len n rows points IP)).
    revert NG. apply negl_ext. intros y Hy. now rewrite (points_ind n rows points y IP Hy).
Qed.
End Main.
