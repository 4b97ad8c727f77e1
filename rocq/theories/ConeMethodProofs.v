(** A rational polytope multiplied by a number that clears the denominators of its vertices. *)
From Coq Require Import QArith Qabs Qfield Lqa Qpower.
From Verif Require Import Common RatVec RatVecSpec RatVecProofs IntegSpec ZMat Hermite HermiteProofs Det Piped PipedSpec PipedProofs PipedProofs3 ConeSpec CountSpec IntegralSpec IntegMath IntegProofs5 Series DecompProofs ExpProofs2 PerturbSpec CountProofs6 CountProofs7 LimitProofs IntegralProofs3 IntegralProofs5 IntegralProofs6 Valuation ValuationSpec2 ValuationProofs4 ValuationProofs8 ConeMethodSpec.
Open Scope Z_scope.

Lemma dilate_twice s t c : dilate_row s (dilate_row t c) = dilate_row (s * t) c.
Proof. destruct c as [|b a]; [reflexivity|]. cbn [dilate_row]. f_equal. ring. Qed.
Lemma dilate_rows s t rows : map (dilate_row s) (map (dilate_row t) rows) = map (dilate_row (s * t)) rows.
Proof. rewrite map_map. apply map_ext. intros c. apply dilate_twice. Qed.
Lemma dilate_len t c : length (dilate_row t c) = length c.
Proof. now destruct c. Qed.
Lemma bounded_dilate n t rows : 0 < t -> bounded n rows -> bounded n (map (dilate_row t) rows).
Proof.
  intros Ht (B & HB). pose proof (inject_pos t Ht) as Pt. exists (t * B). intros x Hx k Hk. rewrite inject_Z_mult.
  assert (P : in_polyhedron n rows (fun j => x j / inject_Z t)%Q).
  { intros c Hc. specialize (Hx _ (in_map (dilate_row t) rows c Hc)). rewrite (slack_ext n (dilate_row t c) x (qscale t (fun j => x j / inject_Z t)%Q)) in Hx by (intros j _; unfold qscale; field; lra). rewrite slack_dilate in Hx. apply (Qmult_le_l 0 _ _ Pt). rewrite Qmult_0_r. exact Hx. }
  specialize (HB _ P k Hk). cbv beta in HB. set (y := (x k / inject_Z t)%Q) in *. assert (E : (x k == inject_Z t * y)%Q) by (unfold y; field; lra). rewrite E. split; nra.
Qed.
Lemma tangent_dilate n t rows v x : 0 < t -> in_tangent_cone n (map (dilate_row t) rows) (qscale t v) (qscale t x) <-> in_tangent_cone n rows v x.
Proof.
  intros Ht. pose proof (inject_pos t Ht) as Pt. split.
  - intros H c Hc E. specialize (H _ (in_map (dilate_row t) rows c Hc)). rewrite !slack_dilate in H. apply (Qmult_le_l 0 _ _ Pt). rewrite Qmult_0_r. apply H. rewrite E. ring.
  - intros H c Hc E. apply in_map_iff in Hc as (c' & <- & Hc). rewrite slack_dilate in *. apply Qmult_le_0_compat; [lra|]. apply H; [exact Hc|]. destruct (Qmult_integral _ _ E) as [X|X]; [lra|exact X].
Qed.
Lemma tangent_ext n rows v w x y : same_point n v w -> same_point n x y -> in_tangent_cone n rows v x -> in_tangent_cone n rows w y.
Proof. intros Hv Hx H c Hc E. rewrite <- (slack_ext n c x y Hx). apply H; [exact Hc|]. rewrite (slack_ext n c v w Hv). exact E. Qed.
Lemma all_vertices_ext n rows (vs ws : list (nat -> Q)) : length vs = length ws -> (forall i, (i < length vs)%nat -> same_point n (nth i vs origin) (nth i ws origin)) -> all_vertices n rows vs -> all_vertices n rows ws.
Proof.
  intros L E (V1 & V2 & V3). split; [|split].
  - intros w Hw. apply (In_nth _ _ origin) in Hw as (i & Hi & <-). apply (vertex_ext n rows (nth i vs origin)); [apply E; lia|]. apply V1, nth_In. lia.
  - intros v Hv. destruct (V2 v Hv) as (u & Hu & Eu). apply (In_nth _ _ origin) in Hu as (i & Hi & <-). exists (nth i ws origin). split; [apply nth_In; lia|]. intros k Hk. rewrite (Eu k Hk). apply E; assumption.
  - intros i j Hij Hj S. apply (V3 i j Hij ltac:(lia)). intros k Hk. rewrite (E i ltac:(lia) k Hk), (E j ltac:(lia) k Hk). apply S, Hk.
Qed.
Lemma find_first {A} (f : A -> list Z) (l : list A) d0 : (forall i j, (i < j)%nat -> (j < length l)%nat -> f (nth i l d0) <> f (nth j l d0)) ->
  forall c, In c l -> find (fun d => if list_eq_dec Z.eq_dec (f d) (f c) then true else false) l = Some c.
Proof.
  induction l as [|a l IH]; intros H c Hc; [destruct Hc|]. cbn [find]. destruct (list_eq_dec Z.eq_dec (f a) (f c)) as [E|E].
  - destruct Hc as [->|Hc]; [reflexivity|]. exfalso. apply (In_nth _ _ d0) in Hc as (j & Hj & <-). apply (H 0%nat (S j)); [lia|cbn [length]; lia|]. exact E.
  - destruct Hc as [->|Hc]; [contradiction|]. apply IH; [|exact Hc]. intros i j Hij Hj. apply (H (S i) (S j)); [lia|cbn [length]; lia].
Qed.
Section Dilated.
Context (n : nat) (rows : list (list Z)) (cones : list vcone) (T : nat -> vcone -> list vcone) (apex : vcone -> rvec).
Context (LR : forall c, In c rows -> length c = S n) (BD : bounded n rows).
Context (TC : tangent_cones n rows cones) (TR : triangulates_cones n T cones).
Definition pieces (c : vcone) : list (list (list Z)) := map vc_rays (T n (mkVC (apex c) (vc_rays c) (vc_coef c))).
(** D times the vertex *)
Definition big (D : Z) (c : vcone) : list Z := map (fun i => D * num_at (vc_vertex c) i / den_at (vc_vertex c) i) (seq 0 n).
Lemma big_len D c : length (big D c) = n.
Proof. unfold big. now rewrite map_length, seq_length. Qed.
Lemma cone_vertex c : In c cones -> is_vertex n rows (coord (vc_vertex c)).
Proof. intros H. apply (proj1 (proj1 TC)). apply (in_map (fun c => coord (vc_vertex c))), H. Qed.
Lemma den_pos c i : In c cones -> 0 < den_at (vc_vertex c) i.
Proof.
  intros H. destruct (proj2 TC c H) as ((_ & _ & P & _) & _). unfold den_at. destruct (Nat.lt_ge_cases i (length (denominator (vc_vertex c)))) as [L|L]; [|rewrite nth_overflow by exact L; lia].
  rewrite Forall_forall in P. apply P, nth_In, L.
Qed.
Lemma big_ok D c : clears n rows D -> In c cones -> same_point n (qscale D (coord (vc_vertex c))) (zpoint (big D c)).
Proof.
  intros [D0 CL] Hc i Hi. destruct (CL _ (cone_vertex c Hc) i Hi) as (z & Hz). pose proof (den_pos c i Hc) as P. unfold qscale, zpoint, big. rewrite nth_map_seq by exact Hi. cbv beta.
  assert (E : D * num_at (vc_vertex c) i = z * den_at (vc_vertex c) i).
  { apply inject_Z_injective. rewrite !inject_Z_mult, <- Hz. unfold coord. field. pose proof (inject_pos _ P). lra. }
  rewrite E, Z.div_mul by lia. exact Hz.
Qed.
Lemma big_mul D s c : clears n rows D -> clears n rows (s * D) -> In c cones -> big (s * D) c = map (Z.mul s) (big D c).
Proof.
  intros C1 C2 Hc. apply nth_ext with (d := 0) (d' := s * 0); [rewrite map_length, !big_len; reflexivity|]. rewrite big_len. intros i Hi. rewrite (map_nth (Z.mul s)). apply inject_Z_injective. rewrite inject_Z_mult.
  pose proof (big_ok D c C1 Hc i Hi) as E1. pose proof (big_ok (s * D) c C2 Hc i Hi) as E2. unfold qscale, zpoint in E1, E2. rewrite <- E1, <- E2, inject_Z_mult. ring.
Qed.
Section OneD.
Context (D : Z) (CL : clears n rows D).
Definition rowsD : list (list Z) := map (dilate_row D) rows.
Definition vsD : list (list Z) := map (big D) cones.
Definition triD (v : list Z) : list (list (list Z)) := match find (fun c => if list_eq_dec Z.eq_dec (big D c) v then true else false) cones with Some c => pieces c | None => [] end.
Lemma rowsD_len c : In c rowsD -> length c = S n.
Proof. intros H. unfold rowsD in H. apply in_map_iff in H as (r & <- & H). rewrite dilate_len. auto. Qed.
Lemma vsD_len v : In v vsD -> length v = n.
Proof. intros H. unfold vsD in H. apply in_map_iff in H as (c & <- & _). apply big_len. Qed.
Lemma vsD_all : all_vertices n rowsD (map zpoint vsD).
Proof.
  apply (all_vertices_ext n rowsD (map (qscale D) (map (fun c => coord (vc_vertex c)) cones))).
  - unfold vsD. now rewrite !map_length.
  - rewrite !map_length. intros i Hi. unfold vsD. rewrite !map_map. set (d := mkVC (rv_zero 0) [] 0).
    rewrite (nth_map_in (fun c => qscale D (coord (vc_vertex c))) cones i d origin Hi), (nth_map_in (fun c => zpoint (big D c)) cones i d origin Hi). apply big_ok; [exact CL|now apply nth_In].
  - apply dilate_vertices; [apply CL|apply TC].
Qed.
Lemma triD_ok c : In c cones -> triD (big D c) = pieces c.
Proof.
  intros Hc. unfold triD. set (d := mkVC (rv_zero 0) [] 0). rewrite (find_first (big D) cones d); [reflexivity| |exact Hc]. intros i j Hij Hj E. destruct (vsD_all) as (_ & _ & DI). apply (DI i j Hij); [unfold vsD; now rewrite !map_length|].
  intros k Hk. unfold vsD. rewrite map_map, (nth_map_in (fun c => zpoint (big D c)) cones i d origin ltac:(lia)), (nth_map_in (fun c => zpoint (big D c)) cones j d origin Hj), E. reflexivity.
Qed.
Lemma splitsD c : In c cones -> splits_tangent_cone n rowsD (big D c) (pieces c).
Proof.
  intros Hc. destruct (TR c (apex c) Hc) as (_ & TR1 & TR2 & TR3). fold (pieces c) in *. pose proof (proj1 CL) as D0. pose proof (inject_pos D D0) as PD. pose proof (big_ok D c CL Hc) as BO. destruct (proj2 TC c Hc) as (_ & _ & TG).
  assert (CO : forall R x, in_cone n (zpoint (big D c)) R x <-> in_cone n origin R (fun i => x i / inject_Z D - coord (vc_vertex c) i)%Q).
  { intros R x. split; intros (a & A1 & A2).
    - exists (fun k => a k / inject_Z D)%Q. split; [intros k Hk; unfold Qdiv; apply Qmult_le_0_compat; [auto|apply Qlt_le_weak, Qinv_lt_0_compat, PD]|]. intros i Hi. specialize (A2 i Hi). cbv beta in A2. rewrite <- (BO i Hi) in A2. unfold qscale in A2. unfold origin.
      rewrite (sumq_ext _ _ (fun k => / inject_Z D * (a k * inject_Z (vat R k i)))%Q) by (intros k _; unfold Qdiv; ring). rewrite sumq_scal, <- A2. field. lra.
    - exists (fun k => inject_Z D * a k)%Q. split; [intros k Hk; apply Qmult_le_0_compat; [lra|auto]|]. intros i Hi. specialize (A2 i Hi). cbv beta in A2. rewrite <- (BO i Hi). unfold qscale. unfold origin in A2.
      rewrite (sumq_ext _ _ (fun k => inject_Z D * (a k * inject_Z (vat R k i)))%Q) by (intros k _; ring). rewrite sumq_scal, <- A2. field. lra. }
  split; [exact TR1|]. split.
  - intros x. transitivity (in_tangent_cone n rows (coord (vc_vertex c)) (fun i => x i / inject_Z D)%Q).
    + rewrite <- (tangent_dilate n D rows _ _ D0). fold rowsD. split; apply tangent_ext; try (intros k Hk; unfold qscale; field; lra); [intros k Hk; symmetry; apply BO, Hk|exact BO].
    + rewrite TG, TR2. split; intros (R & HR & I); exists R; (split; [exact HR|]); now apply CO.
  - intros i j x Hij Hj [O1 O2]. apply (TR3 i j (fun k => x k - zpoint (big D c) k)%Q Hij Hj).
    split; [destruct O1 as (a & A1 & A2)|destruct O2 as (a & A1 & A2)]; exists a; (split; [exact A1|]); intros k Hk; rewrite <- (A2 k Hk); unfold origin; ring.
Qed.
Lemma vsD_splits v : In v vsD -> splits_tangent_cone n rowsD v (triD v).
Proof. intros H. unfold vsD in H. apply in_map_iff in H as (c & <- & Hc). rewrite triD_ok by exact Hc. now apply splitsD. Qed.
Lemma conesD : flat_map (fun v => map (pair v) (triD v)) vsD = flat_map (fun c => map (pair (big D c)) (pieces c)) cones.
Proof.
  unfold vsD. assert (G : forall l, (forall c, In c l -> In c cones) -> flat_map (fun v => map (pair v) (triD v)) (map (big D) l) = flat_map (fun c => map (pair (big D c)) (pieces c)) l).
  { induction l as [|c l IH]; intros H; [reflexivity|]. cbn [map flat_map]. rewrite triD_ok by (apply H; now left). f_equal. apply IH. intros d Hd. apply H. now right. }
  apply G. auto.
Qed.
Lemma rowsD_bounded : bounded n rowsD.
Proof. apply bounded_dilate; [apply CL|exact BD]. Qed.
End OneD.
(** The denominators of the vertices can be cleared. *)
Lemma clears_exists : exists D, clears n rows D.
Proof.
  assert (G : forall l, (forall c, In c l -> In c cones) -> exists D, 0 < D /\ forall c i, In c l -> (i < n)%nat -> (den_at (vc_vertex c) i | D)).
  { induction l as [|c l IH]; intros H; [exists 1; split; [lia|intros c i []]|]. destruct IH as (D & D0 & HD); [intros d Hd; apply H; now right|].
    assert (G : forall k, exists E, 0 < E /\ forall i, (i < k)%nat -> (den_at (vc_vertex c) i | E)).
    { induction k as [|k (E & E0 & HE)]; [exists 1; split; [lia|intros; lia]|]. pose proof (den_pos c k (H c (or_introl eq_refl))) as P. exists (E * den_at (vc_vertex c) k). split; [nia|]. intros i Hi. destruct (Nat.eq_dec i k) as [->|N]; [apply Z.divide_factor_r|apply Z.divide_mul_l, HE; lia]. }
    destruct (G n) as (E & E0 & HE). exists (D * E). split; [nia|]. intros d i [<-|Hd] Hi; [apply Z.divide_mul_r; auto|apply Z.divide_mul_l; auto]. }
  destruct (G cones (fun _ H => H)) as (D & D0 & HD). exists D. split; [exact D0|]. intros v Hv i Hi. destruct (proj1 (proj2 (proj1 TC)) v Hv) as (w & Hw & E). apply in_map_iff in Hw as (c & <- & Hc). destruct (HD c i Hc Hi) as (t & Ht).
  exists (t * num_at (vc_vertex c) i). rewrite (E i Hi). unfold coord. pose proof (den_pos c i Hc) as P. rewrite Ht, !inject_Z_mult. field. pose proof (inject_pos _ P). lra.
Qed.
Lemma clears_mul D s : 0 < s -> clears n rows D -> clears n rows (s * D).
Proof.
  intros Hs [D0 CL]. split; [nia|]. intros v Hv i Hi. destruct (CL v Hv i Hi) as (z & E). exists (s * z). rewrite !inject_Z_mult, <- E. ring.
Qed.
End Dilated.
