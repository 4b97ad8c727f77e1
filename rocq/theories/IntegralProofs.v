(** Existence of parallelepiped points, and apexes near a vertex off all walls. *)
From Coq Require Import QArith Qfield Lqa.
From Verif Require Import Common SmithSpec SmithProofs2 ZMat Hermite HermiteProofs Det DetProofs RatVec RatVecSpec RatVecProofs IntComb IntCombSpec IntCombProofs Piped PipedSpec PipedProofs PipedProofs2 PipedProofs3 PipedProofs4 ConeSpec ConeProofs Irrational CountSpec IntegralSpec IrrationalProofs Barvinok BarvinokSpec BarvinokProofs2 BarvinokProofs3 BarvinokProofs4 BrionLinear BrionProofs BrionProofs2 EulerProofs BrionProofs4 BrionProofs5 Count CountProofs CountProofs2 CountProofs7.
Open Scope Z_scope.

(** The half-open parallelepiped has |det| integer points, however large that is. *)
Lemma points_exist n c v : (0 < n)%nat -> cone_ok n c -> usable n v -> exists ps, NoDup ps /\ (forall x, In x ps <-> in_parallelepiped n v (s_rays c) x) /\ Z.of_nat (length ps) = Z.abs (s_det c).
Proof.
  intros Hn OK [(Pr & k & HP & RV) Dv]. destruct (scale_exact Pr k v HP RV) as (v' & w & s & SE & Hs & Lw & SV & _). rewrite Dv in SE, Lw, SV.
  destruct (PipedProofs4.gen_ok xgcd_euclid xgcd_euclid_contract n Hn c OK v w s v' SE Hs Lw) as (fuel & g & G & Lm & Pm & Ec & Es & (W & Wi & R & Ri & I1 & I2 & I3 & FAC & MU)). clear G MU Ec Es.
  set (A := ent (s_rays c)) in *. set (F := ent (s_facets c)) in *. set (dl := fun j => nth j (s_divs c) 0) in *. set (dd := Z.abs (det n A)) in *. set (sc := fun j => dd / dl j) in *. set (bb := fun i => pr n F (fun k => nth k w 0) i / s) in *.
  destruct OK as (NV & ED & D0 & DU & DV).
  assert (DN : det n A <> 0) by (unfold A; now rewrite <- ED). assert (DV' : forall j, (j < n)%nat -> (nth j (s_divs c) 0 | det n (ent (s_rays c)))) by (intros j Hj; rewrite <- ED; now apply DV).
  assert (DD : 0 < dd) by (unfold dd; lia).
  pose proof (w_pair n (s_rays c) (s_facets c) (s_divs c) DU) as PAIR. pose proof (w_dl n (s_rays c) (s_facets c) (s_divs c) DU) as DL. pose proof (w_sc n (s_rays c) (s_facets c) (s_divs c) DU DV') as SC.
  change (forall i j, (i < n)%nat -> (j < n)%nat -> zsum n (fun k => A i k * F j k) = if (i =? j)%nat then - dl j else 0) in PAIR. change (forall j, (j < n)%nat -> 0 < dl j) in DL. change (forall j, (j < n)%nat -> sc j * dl j = dd) in SC.
  set (mx := p_max g) in *. set (u := map (fun x => x - 1) mx).
  assert (FP : Forall (fun x => 0 < x) mx) by (apply Forall_forall; intros x Hx; apply In_nth with (d := 0) in Hx as (j & Hj & <-); apply Pm; now rewrite <- Lm).
  assert (PRD : zprod mx = dd).
  { unfold dd. rewrite <- (adapted_prod n A W (fun j => nth j mx 0)); [|exists Wi, R, Ri; auto|exact Pm]. f_equal. apply list_map_nth. exact Lm. }
  assert (DDE : dd = Z.abs (s_det c)) by (unfold dd, A; now rewrite ED).
  assert (Lu : length u = n) by (unfold u; now rewrite map_length).
  destruct (enum_ok u) with (extra := 1%nat) as (s1 & kss & EM & ND & IB & LK & _); [lia|apply Forall_forall; intros x Hx; unfold u in Hx; apply in_map_iff in Hx as (y & <- & Hy); rewrite Forall_forall in FP; specialize (FP y Hy); lia|].
  set (P := fun ks l => PipedProofs2.pt n A F dl W bb (fun j => nth j ks 0) l). set (GP := fun ks => map (P ks) (seq 0 n)). exists (map GP kss).
  assert (BX : forall ks, In ks kss <-> length ks = n /\ forall j, (j < n)%nat -> 0 <= nth j ks 0 < nth j mx 0) by (intros ks; rewrite IB; unfold u; rewrite box_iff, Lm; reflexivity).
  assert (INJ : forall ks ks', In ks kss -> In ks' kss -> GP ks = GP ks' -> ks = ks').
  { intros ks ks' H H' E. apply BX in H as [L B]. apply BX in H' as [L' B']. unfold GP in E.
    apply nth_ext with (d := 0) (d' := 0); [congruence|]. rewrite L. apply (pt_inj n A F dl W Wi R Ri (fun j => nth j mx 0) I2 I3 FAC bb); auto.
    intros l Hl. change (P ks l = P ks' l). apply (f_equal (fun z => nth l z 0)) in E. now rewrite !nth_map_seq in E by auto. }
  split; [|split].
  - clear -ND INJ. induction kss as [|k kss IH]; cbn [map]; constructor.
    + intros H. apply in_map_iff in H as (k' & E & H'). inversion ND; subst. assert (k' = k) by (apply INJ; auto; [now right|now left]). subst. auto.
    + inversion ND; subst. apply IH; auto. intros a b Ha Hb. apply INJ; now right.
  - intros x. assert (WIN : forall x, length x = n -> in_parallelepiped n v (s_rays c) x <-> forall i, (i < n)%nat -> bb i - dl i < pr n F (fun k => nth k x 0) i <= bb i).
    { intros x0 Lx. apply (in_piped_iff n (s_rays c) (s_facets c) (s_divs c) v w s DU DN Hs DV' SV x0 Lx). }
    rewrite in_map_iff. split.
    + intros (ks & <- & Hk). unfold GP. assert (LG : length (map (P ks) (seq 0 n)) = n) by (now rewrite map_length, seq_length). apply (WIN _ LG). intros i Hi.
      rewrite (pr_ext n F _ (P ks)) by (intros l Hl; now rewrite nth_map_seq). apply (pt_window n A F dl PAIR DL W bb _ i Hi).
    + intros H. assert (Lx : length x = n) by apply H. pose proof (proj1 (WIN x Lx) H) as H1. clear H. rename H1 into H.
      destruct (pt_onto n A F dl sc dd DN DD PAIR DL SC W Wi R (fun j => nth j mx 0) I1 FAC Pm bb (fun k => nth k x 0) H) as (k' & Bk & Ek).
      exists (map k' (seq 0 n)). split.
      * unfold GP. etransitivity; [|symmetry; apply (list_map_nth x n Lx)]. apply map_ext_in. intros l Hl. apply in_seq in Hl. rewrite <- (Ek l) by lia. unfold P, PipedProofs2.pt. assert (EW : forall l, wk n W (fun j => nth j (map k' (seq 0 n)) 0) l = wk n W k' l) by (intros l0; unfold wk; apply zsum_ext; intros j Hj; now rewrite nth_map_seq).
        rewrite EW. f_equal. apply zsum_ext. intros i Hi. unfold quo. rewrite (pr_ext n F (wk n W (fun j => nth j (map k' (seq 0 n)) 0)) (wk n W k')) by (intros; apply EW). reflexivity.
      * apply BX. split; [now rewrite map_length, seq_length|]. intros j Hj. rewrite nth_map_seq by auto. now apply Bk.
  - rewrite map_length, LK. unfold u. rewrite box_size_prod, PRD, <- DDE. lia.
Qed.
(** Generic vectors with positive entries. *)
Lemma bound_exists {A} (f : A -> Z) l : exists M, 0 < M /\ forall x, In x l -> Z.abs (f x) < M.
Proof.
  induction l as [|x l (M & HM & IH)]; [exists 1; split; [lia|intros x []]|]. exists (M + Z.abs (f x)). split; [lia|]. intros y [<-|Hy]; [lia|]. specialize (IH y Hy). lia.
Qed.
Lemma generic_positive n N : (forall r, In r N -> length r = n /\ exists k, (k < n)%nat /\ nth k r 0 <> 0) -> exists g, length g = n /\ (forall k, (k < n)%nat -> 0 < nth k g 0) /\ forall r, In r N -> zdot g r <> 0.
Proof.
  induction N as [|r N IH]; intros H; [exists (repeat 1 n); split; [apply repeat_length|split; [|intros r []]]; intros k Hk; rewrite (nth_indep _ 0 1) by (now rewrite repeat_length); rewrite nth_repeat; lia|].
  destruct IH as (g & Lg & Pg & G); [intros x Hx; apply H; now right|]. destruct (H r (or_introl eq_refl)) as (Lr & k & Hk & Nk).
  destruct (bound_exists (zdot g) (r :: N)) as (M & M0 & MB).
  set (g' := upd g k (nth k g 0 + M)). assert (Lg' : length g' = n) by (unfold g'; now rewrite length_upd).
  assert (EZ : forall x, zdot g' x = zdot g x + M * nth k x 0).
  { intros x. unfold zdot. rewrite Lg', Lg. replace (M * nth k x 0) with (zsum n (fun j => if Nat.eqb j k then M * nth j x 0 else 0)) by (rewrite (zsum_single n _ k Hk); [now rewrite Nat.eqb_refl|intros j _ NE; apply Nat.eqb_neq in NE; now rewrite NE]).
    rewrite <- ZMat.zsum_add. apply zsum_ext. intros j Hj. unfold g'. destruct (Nat.eqb_spec j k) as [->|NE]; [rewrite nth_upd_eq by lia; ring|rewrite nth_upd_neq by auto; ring]. }
  exists g'. split; [exact Lg'|]. split.
  - intros j Hj. unfold g'. specialize (Pg j Hj). destruct (Nat.eq_dec j k) as [->|NE]; [rewrite nth_upd_eq by lia; lia|rewrite nth_upd_neq by auto; exact Pg].
  - intros x Hx. rewrite EZ. specialize (MB x Hx). destruct (Z.eq_dec (nth k x 0) 0) as [E0|N0].
    + rewrite E0, Z.mul_0_r, Z.add_0_r. destruct Hx as [->|Hx]; [congruence|auto].
    + nia.
Qed.
Lemma zdot_sumq n (a : list Z) x : length a = n -> (inject_Z (zdot a x) == sumq n (fun k => zpoint x k * inject_Z (nth k a 0%Z)))%Q.
Proof. intros L. unfold zdot. rewrite L, <- sumq_inj. apply sumq_ext. intros k _. rewrite inject_Z_mult. unfold zpoint. ring. Qed.
Lemma indep_nonzero n T h : n_vectors n T -> lin_indep n T -> length h = n -> (exists k, (k < n)%nat /\ nth k h 0 <> 0) -> exists j, (j < n)%nat /\ zdot h (nth j T []) <> 0.
Proof.
  intros NV LI Lh (k & Hk & Nk). assert (D : det n (ent T) <> 0) by (apply indep_det; exact LI).
  destruct (existsb (fun j => negb (zdot h (nth j T []) =? 0)) (seq 0 n)) eqn:EX.
  - apply existsb_exists in EX as (j & Hj & E). apply in_seq in Hj. exists j. split; [lia|]. now apply negb_true_iff, Z.eqb_neq in E.
  - exfalso. assert (Z0 : forall j, (j < n)%nat -> zsum n (fun l => ent T j l * nth l h 0) = 0).
    { intros j Hj. destruct (Z.eq_dec (zdot h (nth j T [])) 0) as [E|E].
      - unfold zdot in E. rewrite Lh in E. etransitivity; [|exact E]. apply zsum_ext. intros l _. unfold ent. ring.
      - assert (X : existsb (fun j => negb (zdot h (nth j T []) =? 0)) (seq 0 n) = true); [|congruence]. apply existsb_exists. exists j. split; [apply in_seq; lia|]. now apply negb_true_iff, Z.eqb_neq. }
    assert (E : det n (ent T) * nth k h 0 = 0); [|nia].
    transitivity (zsum n (fun l => mmul n (adj n (ent T)) (ent T) k l * nth l h 0)).
    + rewrite (zsum_single n _ k Hk); [pose proof (adj_l n (ent T) k k Hk Hk) as AL; cbv beta in AL; rewrite AL, delta_eq; ring|]. intros l Hl NE. pose proof (adj_l n (ent T) k l Hk Hl) as AL; cbv beta in AL; rewrite AL, delta_neq by auto. ring.
    + unfold mmul. rewrite (zsum_ext n _ (fun l => zsum n (fun j => adj n (ent T) k j * ent T j l * nth l h 0))) by (intros l _; rewrite Z.mul_comm, <- ZMat.zsum_scal; apply zsum_ext; intros; ring). rewrite zsum_swap.
      apply zsum_zero. intros j Hj. rewrite (zsum_ext n _ (fun l => adj n (ent T) k j * (ent T j l * nth l h 0))) by (intros; ring). rewrite ZMat.zsum_scal, (Z0 j Hj). ring.
Qed.

(** An apex near a vertex w of the polyhedron, off all walls of a triangulation of the tangent
    cone; the integer points of the cone are the same at this apex as at the origin. *)
Lemma slack_plus n c w z : (slack n c (fun k => zpoint w k + z k) == slack n c (zpoint w) + sumq n (fun k => z k * inject_Z (nth (S k) c 0%Z)))%Q.
Proof. unfold slack. rewrite <- Qplus_assoc. apply Qplus_comp; [reflexivity|]. rewrite <- sumq_add. apply sumq_ext. intros k _. ring. Qed.
Lemma apex_exists n rows w Ts : (0 < n)%nat -> (forall c, In c rows -> length c = S n) -> splits_tangent_cone n rows w Ts ->
  exists u, usable n u /\ (forall T x, In T Ts -> ~ on_wall n (coord u) T (zpoint x)) /\
    forall x, (exists T, In T Ts /\ in_cone n (coord u) T (zpoint x)) <-> in_tangent_cone n rows (zpoint w) (fun k => zpoint w k + zpoint x k)%Q.
Proof.
  intros Hn LR (T1 & T2 & T3).
  assert (MOVE : forall T a x, in_cone n a T x <-> in_cone n (zpoint w) T (fun k => zpoint w k + (x k - a k))%Q).
  { intros T a x. unfold in_cone, combination. split; intros (b & P & E); exists b; (split; [exact P|]); intros i Hi; specialize (E i Hi); lra. }
  assert (IG : forall z, in_tangent_cone n rows (zpoint w) (fun k => zpoint w k + z k)%Q <-> forall c, In c rows -> (slack n c (zpoint w) == 0)%Q -> (0 <= sumq n (fun k => z k * inject_Z (nth (S k) c 0%Z)))%Q).
  { intros z. unfold in_tangent_cone. split; intros X c Hc Tc; specialize (X c Hc Tc); rewrite (slack_plus n c w z) in *; lra. }
  assert (NE : exists T0, In T0 Ts).
  { destruct (proj1 (T2 (zpoint w))) as (T0 & H0 & _); [|eauto]. intros c Hc Tc. rewrite Tc. lra. }
  destruct NE as (T0 & H0). destruct (T1 T0 H0) as [NV0 LI0].
  assert (WN : exists H, (forall h, In h H -> length h = n /\ exists k, (k < n)%nat /\ nth k h 0 <> 0) /\
    forall T, In T Ts -> exists c, cone_ok n c /\ s_rays c = T /\ incl (s_facets c) H).
  { clear -T1. induction Ts as [|T Ts IH]; [exists []; split; [intros h []|intros T []]|]. destruct IH as (H & HP & HC); [intros T' H'; apply T1; now right|]. destruct (T1 T (or_introl eq_refl)) as [NV LI]. destruct (cone_of n T NV LI) as (c & [OK _] & ER).
    exists (s_facets c ++ H). split.
    - intros h Hh. apply in_app_iff in Hh as [Hh|Hh]; [|exact (HP h Hh)]. split; [|exact (facets_normals n c OK h Hh)]. destruct OK as (_ & _ & _ & ((_ & FF) & _) & _). rewrite Forall_forall in FF. auto.
    - intros T' [<-|H']; [exists c; split; [exact OK|split; [exact ER|]]; intros h Hh; apply in_app_iff; now left|]. destruct (HC T' H') as (c' & A1 & A2 & A3). exists c'. split; [exact A1|]. split; [exact A2|]. intros h Hh. apply in_app_iff. right. auto. }
  destruct WN as (H & HP & HC).
  destruct (generic_positive n (map (fun h => map (fun j => zdot h (nth j T0 [])) (seq 0 n)) H)) as (g & Lg & Pg & Gg).
  { intros r Hr. apply in_map_iff in Hr as (h & <- & Hh). split; [now rewrite map_length, seq_length|]. destruct (HP h Hh) as [Lh Nh]. destruct (indep_nonzero n T0 h NV0 LI0 Lh Nh) as (j & Hj & E). exists j. split; [exact Hj|]. rewrite nth_map_seq by exact Hj. exact E. }
  set (y := map (fun k => zsum n (fun j => nth j g 0 * ent T0 j k)) (seq 0 n)).
  assert (Ly : length y = n) by (unfold y; now rewrite map_length, seq_length).
  assert (Gy : forall h, length h = n -> zdot h y = zdot g (map (fun j => zdot h (nth j T0 [])) (seq 0 n))).
  { intros h Lh. unfold zdot at 1 2. rewrite Lh, Lg. rewrite (zsum_ext n (fun k => nth k h 0 * nth k y 0) (fun k => zsum n (fun j => nth k h 0 * (nth j g 0 * ent T0 j k)))) by (intros k Hk; unfold y; rewrite nth_map_seq by exact Hk; rewrite <- ZMat.zsum_scal; reflexivity).
    rewrite zsum_swap. apply zsum_ext. intros j Hj. rewrite nth_map_seq by exact Hj. unfold zdot. rewrite Lh, <- ZMat.zsum_scal. apply zsum_ext. intros k _. unfold ent. ring. }
  assert (Yin : in_tangent_cone n rows (zpoint w) (fun k => zpoint w k + zpoint y k)%Q).
  { apply T2. exists T0. split; [exact H0|]. exists (fun k => inject_Z (nth k g 0%Z)). split.
    - intros k Hk. specialize (Pg k Hk). change 0%Q with (inject_Z 0). rewrite <- Zle_Qle. lia.
    - intros i Hi. setoid_replace (zpoint w i + zpoint y i - zpoint w i)%Q with (zpoint y i) by ring. unfold zpoint, y. rewrite nth_map_seq by exact Hi. rewrite <- sumq_inj. apply sumq_ext. intros k _. rewrite inject_Z_mult. reflexivity. }
  destruct (bound_exists (fun h => zdot h y) (H ++ map (fun c => tl c) rows)) as (M & M0 & MB).
  assert (QM : (0 < inject_Z M)%Q) by (change 0%Q with (inject_Z 0); now rewrite <- Zlt_Qlt).
  set (u := mkRV (map Z.opp y) (repeat M n) false [] 0).
  assert (CU : forall k, (k < n)%nat -> (coord u k == - (zpoint y k / inject_Z M))%Q).
  { intros k Hk. unfold coord, num_at, den_at, u. cbn [enumerator denominator]. rewrite (nth_indep (repeat M n) 1 M) by (now rewrite repeat_length). rewrite nth_repeat. rewrite (nth_map0 _ _ _ _ 0) by lia. rewrite inject_Z_opp. unfold zpoint. field. lra. }
  exists u. split; [|split].
  - split; [|unfold dim, u; cbn [enumerator]; now rewrite map_length]. exists nonzero, (CPair (map Z.opp y) (repeat M n)). split; [now left|]. split.
    + cbn [ctor_ok]. split; [rewrite map_length, repeat_length; exact Ly|]. apply Forall_forall. intros d Hd. apply repeat_spec in Hd. subst d. unfold nonzero. lia.
    + exists u, []. split; [|split; [constructor|reflexivity]]. cbn [rnew]; unfold rv_pair, assert_then. rewrite map_length, repeat_length, Ly, Nat.eqb_refl. reflexivity.
  - intros T x HT WA. destruct (HC T HT) as (c & OK & ER & IN). subst T. apply (on_wall_iff n c OK) in WA as (i & Hi & E).
    assert (Hh : In (nth i (s_facets c) []) H) by (apply IN, nth_In; rewrite (i_lf n c OK); exact Hi). destruct (HP _ Hh) as [Lh _]. set (h := nth i (s_facets c) []) in *.
    assert (E1 : (ConeProofs.phi n c (zpoint x) i == inject_Z (zdot h x))%Q) by (rewrite (zdot_sumq n h x Lh); reflexivity).
    assert (E2 : (ConeProofs.phi n c (coord u) i == - (inject_Z (zdot h y) / inject_Z M))%Q).
    { rewrite (zdot_sumq n h y Lh). unfold ConeProofs.phi. fold h. unfold ent. fold h. setoid_replace (- (sumq n (fun k => zpoint y k * inject_Z (nth k h 0%Z)) / inject_Z M))%Q with ((- / inject_Z M) * sumq n (fun k => zpoint y k * inject_Z (nth k h 0%Z)))%Q by (field; lra).
      rewrite <- sumq_scal. apply sumq_ext. intros k Hk. rewrite (CU k Hk). field. lra. }
    rewrite E1, E2 in E. assert (E3 : (inject_Z (zdot h x * M + zdot h y) == 0)%Q) by (rewrite inject_Z_plus, inject_Z_mult, E; field; lra).
    apply (proj1 (inject_Z_injective _ 0)) in E3. specialize (MB h (proj2 (in_app_iff _ _ _) (or_introl Hh))). pose proof (Gg _ (in_map (fun h => map (fun j => zdot h (nth j T0 [])) (seq 0 n)) H h Hh)) as GG. cbv beta in GG. rewrite <- (Gy h Lh) in GG. cbv beta in MB. assert (zdot h x = 0) by (destruct (Z.eq_dec (zdot h x) 0); [assumption|exfalso; nia]). nia.
  - rewrite IG in Yin. intros x.
    transitivity (in_tangent_cone n rows (zpoint w) (fun k => zpoint w k + (zpoint x k - coord u k))%Q); [rewrite T2; split; intros (T & HT & X); exists T; (split; [exact HT|]); [exact (proj1 (MOVE T (coord u) (zpoint x)) X)|exact (proj2 (MOVE T (coord u) (zpoint x)) X)]|]. rewrite !IG. assert (EE : forall c, In c rows -> (slack n c (zpoint w) == 0)%Q -> ((0 <= sumq n (fun k => (zpoint x k - coord u k) * inject_Z (nth (S k) c 0%Z)))%Q <-> (0 <= sumq n (fun k => zpoint x k * inject_Z (nth (S k) c 0%Z)))%Q)).
    { intros c Hc Tc. specialize (Yin c Hc Tc). pose proof (LR c Hc) as Lc. destruct c as [|b a]; [discriminate|]. cbn [nth length] in *. assert (La : length a = n) by lia.
      specialize (MB a (proj2 (in_app_iff _ _ _) (or_intror (in_map (fun c => tl c) rows (b :: a) Hc)))). rewrite <- (zdot_sumq n a y La) in Yin. rewrite <- (zdot_sumq n a x La).
      assert (ES : (sumq n (fun k => (zpoint x k - coord u k) * inject_Z (nth k a 0%Z)) == inject_Z (zdot a x * M + zdot a y) / inject_Z M)%Q).
      { rewrite inject_Z_plus, inject_Z_mult, (zdot_sumq n a y La), (zdot_sumq n a x La). setoid_replace ((sumq n (fun k => zpoint x k * inject_Z (nth k a 0%Z)) * inject_Z M + sumq n (fun k => zpoint y k * inject_Z (nth k a 0%Z))) / inject_Z M)%Q with (sumq n (fun k => zpoint x k * inject_Z (nth k a 0%Z)) + / inject_Z M * sumq n (fun k => zpoint y k * inject_Z (nth k a 0%Z)))%Q by (field; lra).
        rewrite <- sumq_scal, <- sumq_add. apply sumq_ext. intros k Hk. rewrite (CU k Hk). field. lra. }
      rewrite ES. change 0%Q with (inject_Z 0) in Yin. rewrite <- Zle_Qle in Yin. transitivity (0 <= zdot a x * M + zdot a y).
      - split; intros X.
        + apply (quot_nonneg _ M ltac:(lia)) in X. nia.
        + apply (quot_nonneg _ M ltac:(lia)). nia.
      - change 0%Q with (inject_Z 0). rewrite <- Zle_Qle. nia. }
    split; intros X c Hc Tc; apply (EE c Hc Tc), X; assumption.
Qed.
