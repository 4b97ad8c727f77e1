(** The simplicial tangent cones generate the integer points of every dilation. *)
From Coq Require Import QArith Qfield Lqa.
From Verif Require Import Common SmithSpec ZMat Hermite HermiteProofs Det DetProofs RatVec RatVecSpec Piped PipedSpec PipedProofs PipedProofs3 PipedProofs4 ConeSpec ConeProofs Irrational CountSpec IntegralSpec Barvinok BarvinokSpec BarvinokProofs2 BarvinokProofs3 BrionLinear BrionProofs BrionProofs2 BrionProofs3 EulerProofs BrionProofs4 BrionProofs5 IntegMath Series DecompProofs ExpSpec ExpProofs ExpProofs2 ExpProofs3 ExpProofs4 Count CountProofs CountProofs2 CountProofs3 CountProofs4 CountProofs5 CountProofs6 CountProofs7 IntegralProofs.
Open Scope Z_scope.

Definition x_vertex (x : xitem) : list Z := fst (fst (fst x)).
Definition x_cone (x : xitem) : bcone := snd (fst x).
Definition x_rays (x : xitem) : list (list Z) := s_rays (b_cone (x_cone x)).
Definition good_item (n : nat) (x : xitem) : Prop :=
  exact_points n x /\ b_coef (x_cone x) = 1 /\ Z.of_nat (length (snd x)) = Z.abs (det n (ent (x_rays x))).
Lemma vertex_items n rows w Ts : (0 < n)%nat -> (forall c, In c rows -> length c = S n) -> splits_tangent_cone n rows w Ts ->
  exists xs, Forall (good_item n) xs /\ map (fun x => (x_vertex x, x_rays x)) xs = map (pair w) Ts /\
    forall x, let s := lsum (map (fun i => boxed n (coord (snd (fst (fst i)))) (b_cone (x_cone i)) x) xs) in
      (s = 1 /\ in_tangent_cone n rows (zpoint w) (fun k => zpoint w k + zpoint x k)%Q) \/ (s = 0 /\ ~ in_tangent_cone n rows (zpoint w) (fun k => zpoint w k + zpoint x k)%Q).
Proof.
  intros Hn LR SP. destruct (apex_exists n rows w Ts Hn LR SP) as (u & UU & NW & TC). destruct SP as (T1 & _ & T3).
  assert (EX : exists xs, Forall (good_item n) xs /\ map (fun x => (x_vertex x, x_rays x)) xs = map (pair w) Ts /\ Forall (fun i : xitem => snd (fst (fst i)) = u) xs).
  { clear -T1 UU Hn. induction Ts as [|T Ts IH]; [exists []; repeat split; constructor|]. destruct IH as (xs & X1 & X2 & X3); [intros T' H'; apply T1; now right|].
    destruct (T1 T (or_introl eq_refl)) as [NV LI]. destruct (cone_of n T NV LI) as (c & [OK _] & ER). destruct (points_exist n c u Hn OK UU) as (ps & P1 & P2 & P3).
    exists ((w, u, mkB 1 c, ps) :: xs). split; [|split].
    - constructor; [|exact X1]. split; [|split; [reflexivity|]].
      + split; [exact UU|]. split; [exact OK|]. split; [exact P1|exact P2].
      + unfold x_rays, x_cone. cbn [fst snd b_cone]. rewrite P3. f_equal. apply OK.
    - cbn [map]. rewrite X2. unfold x_vertex, x_rays, x_cone. cbn [fst snd b_cone]. now rewrite ER.
    - constructor; [reflexivity|exact X3]. }
  destruct EX as (xs & X1 & X2 & X3). exists xs. split; [exact X1|]. split; [exact X2|]. intros x s.
  assert (RT : map x_rays xs = Ts).
  { apply (f_equal (map snd)) in X2. rewrite !map_map in X2. cbn [snd] in X2. rewrite map_id in X2. exact X2. }
  assert (LX : length xs = length Ts) by (rewrite <- RT; now rewrite map_length).
  rewrite Forall_forall in X1, X3.
  set (f := fun i : xitem => ind n (coord (snd (fst (fst i)))) (zpoint x) (b_cone (x_cone i))).
  assert (F : forall i, In i xs -> (f i = true <-> in_cone n (coord u) (x_rays i) (zpoint x))).
  { intros i Hi. unfold f. rewrite (X3 i Hi). unfold x_rays. apply ind_iff. destruct (X1 i Hi) as [E _]. destruct i as [[[a b] d] ps]. exact (proj1 (proj2 E)). }
  set (d0 := (w, u, mkB 1 (mkCone 0 0 [] [] []), []) : xitem).
  assert (SE : s = b2z (existsb f xs)).
  { unfold s. rewrite <- (one_of f d0 xs); [reflexivity|]. intros i j Hij Hj Fi Fj.
    assert (Ii : In (nth i xs d0) xs) by (apply nth_In; lia). assert (Ij : In (nth j xs d0) xs) by (apply nth_In; lia). apply (F _ Ii) in Fi. apply (F _ Ij) in Fj.
    assert (Ei : x_rays (nth i xs d0) = nth i Ts []) by (rewrite <- RT; symmetry; rewrite (nth_indep _ [] (x_rays d0)) by (rewrite map_length; lia); apply map_nth).
    assert (Ej : x_rays (nth j xs d0) = nth j Ts []) by (rewrite <- RT; symmetry; rewrite (nth_indep _ [] (x_rays d0)) by (rewrite map_length; lia); apply map_nth).
    rewrite Ei in Fi. rewrite Ej in Fj.
    assert (OP : forall T, In T Ts -> in_cone n (coord u) T (zpoint x) -> in_open_cone n (zpoint w) T (fun k => zpoint w k + (zpoint x k - coord u k))%Q).
    { intros T HT (a & P & C). exists a. split.
      - intros k Hk. specialize (P k Hk). destruct (Qlt_le_dec 0 (a k)) as [L|L]; [exact L|]. exfalso. apply (NW T x HT). exists a, k. split; [exact Hk|]. split; [lra|exact C].
      - intros k Hk. specialize (C k Hk). cbv beta in C. rewrite <- C. ring. }
    apply (T3 i j (fun k => zpoint w k + (zpoint x k - coord u k))%Q Hij ltac:(lia)). split; apply OP; try assumption; apply nth_In; lia. }
  assert (EI : existsb f xs = true <-> in_tangent_cone n rows (zpoint w) (fun k => zpoint w k + zpoint x k)%Q).
  { rewrite <- TC, existsb_exists. rewrite <- RT. split.
    - intros (i & Hi & E). exists (x_rays i). split; [now apply in_map|]. now apply F.
    - intros (T & HT & E). apply in_map_iff in HT as (i & <- & Hi). exists i. split; [exact Hi|]. now apply F. }
  rewrite SE. destruct (existsb f xs); [left; split; [reflexivity|now apply EI]|right; split; [reflexivity|]]. intros H. apply EI in H. discriminate.
Qed.
Lemma tangent_dilate n t rows w x : 0 < t -> length w = n -> length x = n ->
  (in_tangent_cone n (map (dilate_row t) rows) (qscale t (zpoint w)) (zpoint x) <-> in_tangent_cone n rows (zpoint w) (fun k => zpoint w k + zpoint (vsub x (map (Z.mul t) w)) k)%Q).
Proof.
  intros Ht Lw Lx. pose proof (inject_pos t Ht) as Q0.
  assert (E0 : forall c, (slack n (dilate_row t c) (qscale t (zpoint w)) == 0 <-> slack n c (zpoint w) == 0)%Q).
  { intros c. rewrite slack_dilate. split; intros H; [|rewrite H; ring]. destruct (Qmult_integral _ _ H) as [X|X]; [rewrite X in Q0; discriminate|exact X]. }
  assert (E1 : forall c, (slack n c (zpoint w) == 0)%Q -> (slack n (dilate_row t c) (zpoint x) == slack n c (fun k => zpoint w k + zpoint (vsub x (map (Z.mul t) w)) k))%Q).
  { intros c T0. rewrite slack_plus. rewrite T0. pose proof (slack_dilate n t c (zpoint w)) as SD. rewrite T0 in SD. unfold slack in *.
    rewrite (sumq_ext n (fun k => zpoint (vsub x (map (Z.mul t) w)) k * inject_Z (nth (S k) c 0%Z))%Q (fun k => zpoint x k * inject_Z (nth (S k) (dilate_row t c) 0%Z) + (-1) * (qscale t (zpoint w) k * inject_Z (nth (S k) (dilate_row t c) 0%Z)))%Q).
    - rewrite sumq_add, sumq_scal. lra.
    - intros k Hk. replace (nth (S k) (dilate_row t c) 0) with (nth (S k) c 0) by (destruct c; reflexivity). unfold qscale, zpoint. rewrite vsub_nth by (rewrite map_length; lia). rewrite (map_nth_Z t w k). unfold Z.sub. rewrite inject_Z_plus, inject_Z_opp, inject_Z_mult. ring. }
  unfold in_tangent_cone. split; intros H c Hc T0.
  - rewrite <- (E1 c T0). apply H; [now apply in_map|]. now apply E0.
  - apply in_map_iff in Hc as (c' & <- & Hc). apply E0 in T0. rewrite (E1 c' T0). now apply H.
Qed.
Section Gen.
Context (n : nat) (rows : list (list Z)) (vs : list (list Z)) (tri : list Z -> list (list (list Z))).
Context (Hn : (0 < n)%nat) (LR : forall c, In c rows -> length c = S n) (LV : forall v, In v vs -> length v = n).
Context (AV : all_vertices n rows (map zpoint vs)) (SP : forall v, In v vs -> splits_tangent_cone n rows v (tri v)).
Lemma all_items : exists xs, Forall (good_item n) xs /\ map (fun x => (x_vertex x, x_rays x)) xs = flat_map (fun v => map (pair v) (tri v)) vs /\
  forall t x, 0 < t -> length x = n -> itot n (map (Z.mul t)) (map fst xs) x = lsum (map (fun v => Tind n (map (dilate_row t) rows) v x) (map (qscale t) (map zpoint vs))).
Proof.
  assert (PV : forall v, In v vs -> in_polyhedron n rows (zpoint v)) by (intros v Hv; apply (proj1 AV), in_map, Hv). clear AV.
  induction vs as [|v vs' IH]; [exists []; repeat split; constructor|]. destruct IH as (xs & X1 & X2 & X3); [intros; apply LV; now right|intros; apply SP; now right|intros; apply PV; now right|].
  destruct (vertex_items n rows v (tri v) Hn LR (SP v (or_introl eq_refl))) as (ys & Y1 & Y2 & Y3). exists (ys ++ xs). split; [|split].
  - apply Forall_app. split; assumption.
  - rewrite map_app. cbn [flat_map]. now rewrite X2, Y2.
  - intros t x Ht Lx. rewrite map_app, itot_app. cbn [map]. rewrite lsum_cons, (X3 t x Ht Lx). f_equal. unfold itot. rewrite map_map.
    assert (Ev : forall i, In i ys -> x_vertex i = v /\ b_coef (x_cone i) = 1).
    { intros i Hi. split; [|rewrite Forall_forall in Y1; apply (Y1 i Hi)]. apply (in_map (fun x => (x_vertex x, x_rays x))) in Hi. rewrite Y2 in Hi. apply in_map_iff in Hi as (T & E & _). now injection E as <- _. }
    rewrite (lsum_ext _ (fun i : xitem => boxed n (coord (snd (fst (fst i)))) (b_cone (x_cone i)) (vsub x (map (Z.mul t) v)))).
    + specialize (Y3 (vsub x (map (Z.mul t) v))). cbv zeta in Y3. pose proof (tangent_dilate n t rows v x Ht (LV v (or_introl eq_refl)) Lx) as TD.
      assert (IP : in_polyhedron n (map (dilate_row t) rows) (qscale t (zpoint v))).
      { intros c Hc. apply in_map_iff in Hc as (c' & <- & Hc). rewrite slack_dilate. apply Qmult_le_0_compat; [pose proof (inject_pos t Ht); lra|]. now apply PV; [left|]. }
      destruct (tind_iff n (map (dilate_row t) rows) (qscale t (zpoint v)) x IP) as [[-> A]|[-> A]], Y3 as [[-> B]|[-> B]]; try reflexivity; exfalso; tauto.
    + intros i Hi. destruct (Ev i Hi) as [E1 E2]. unfold x_vertex, x_cone in *. rewrite E1, E2. rewrite Z.mul_1_l. reflexivity.
Qed.
Theorem items_exist : exists xs, Forall (good_item n) xs /\ map (fun x => (x_vertex x, x_rays x)) xs = flat_map (fun v => map (pair v) (tri v)) vs /\
  forall t points, 0 < t -> integer_points n (map (dilate_row t) rows) points -> generates n (map (gcone_of (map (Z.mul t))) xs) points.
Proof.
  destruct all_items as (xs & X1 & X2 & X3). exists xs. split; [exact X1|]. split; [exact X2|]. intros t points Ht IP. apply items_generate with (n := n).
  - revert X1. apply Forall_impl. intros x H. apply H.
  - intros x Hx. rewrite map_length. apply LV. apply (in_map (fun x => (x_vertex x, x_rays x))) in Hx. rewrite X2 in Hx. apply in_flat_map in Hx as (v & Hv & E). apply in_map_iff in E as (T & E & _). injection E as E _. unfold x_vertex in E. now rewrite <- E.
  - apply Forall_forall. intros p Hp. apply IP in Hp. apply Hp.
  - refine (negl_ext n _ _ _ (brion_points n (map (dilate_row t) rows) (map (qscale t) (map zpoint vs)) points (dilate_vertices n t rows (map zpoint vs) Ht AV) IP)). intros x Lx. cbv beta. now rewrite (X3 t x Ht Lx).
Qed.
End Gen.
(** Power sums over the integer points of a dilation. *)
Lemma power_sum n xs t points g m : Forall (good_item n) xs -> (forall x, In x xs -> length (x_vertex x) = n) -> (forall x r, In x xs -> In r (x_rays x) -> zdot g r <> 0) ->
  Forall (fun p => length p = n) points -> generates n (map (gcone_of (map (Z.mul t))) xs) points ->
  (qsum (fun y => sexp (inject_Z (zdot g y)) m) points == qsum (fun x => resF (map (zdot g) (x_rays x)) (map (fun p => (zdot g p + t * zdot g (x_vertex x))%Z) (snd x)) (n + m)%nat) xs)%Q.
Proof.
  intros GI LV GR FP GEN. rewrite Forall_forall in GI.
  assert (EX : forall x, In x xs -> length (x_rays x) = n /\ Forall (fun r => length r = n) (x_rays x) /\ Forall (fun p => length p = n) (snd x)).
  { intros x Hx. destruct (GI x Hx) as [EX _]. destruct x as [[[w v] d] pts]. destruct EX as (_ & ((L1 & L2) & _) & _ & HP). unfold x_rays, x_cone. cbn [fst snd]. split; [exact L1|]. split; [exact L2|]. apply Forall_forall. intros p Hp. apply HP in Hp. apply Hp. }
  assert (GC : Forall (gc_ok n) (map (gcone_of (map (Z.mul t))) xs)).
  { apply Forall_map, Forall_forall. intros x Hx. destruct (EX x Hx) as (L1 & L2 & L3). specialize (LV x Hx). destruct x as [[[w v] d] pts]. unfold x_rays, x_cone, x_vertex in *. cbn [fst snd] in *. unfold gc_ok, gcone_of. cbn [fst snd]. split; [lia|]. split; [exact L2|]. apply Forall_map. revert L3. apply Forall_impl. intros p Lp. rewrite vadd_len; [exact Lp|]. rewrite map_length. lia. }
  assert (NZ : zprodl (map (zdot g) (all_rays (map (gcone_of (map (Z.mul t))) xs))) <> 0).
  { assert (AR : forall r, In r (all_rays (map (gcone_of (map (Z.mul t))) xs)) -> zdot g r <> 0).
    { intros r Hr. unfold all_rays in Hr. apply in_flat_map in Hr as (c & Hc & Hr). apply in_map_iff in Hc as (x & <- & Hx). apply (GR x r Hx). destruct x as [[[w v] d] pts]. exact Hr. }
    revert AR. generalize (all_rays (map (gcone_of (map (Z.mul t))) xs)). intros l. induction l as [|r l IH]; intros AR; [discriminate|]. cbn [map]. change (zprodl (zdot g r :: map (zdot g) l)) with (zdot g r * zprodl (map (zdot g) l)). specialize (AR r (or_introl eq_refl)) as A0. specialize (IH (fun r' H' => AR r' (or_intror H'))). nia. }
  pose proof (gtotal_points n g _ points GC NZ FP GEN (n + m)%nat) as GT.
  assert (IT : forall d (f : ser) j, Nat.iter d shift f (d + j)%nat = f j) by (intros d; induction d as [|d IH]; intros f j; [reflexivity|]; cbn [Nat.iter Nat.add shift]; apply IH).
  rewrite IT in GT. unfold exp_sum in GT. rewrite qsum_map in GT. rewrite <- GT. unfold gtotal. rewrite qsum_map. apply qsum_ext. intros x Hx. destruct (EX x Hx) as (L1 & L2 & L3). specialize (LV x Hx). destruct (GI x Hx) as (_ & C1 & _).
  destruct x as [[[w v] d] pts]. unfold x_rays, x_cone, x_vertex in *. cbn [fst snd] in *. unfold gres, gcone_of. rewrite L1, Nat.sub_diag, C1. cbn [Nat.iter]. unfold scal. change (inject_Z 1) with 1%Q. rewrite Qmult_1_l. rewrite map_map.
  assert (EM : map (fun p => zdot g (vadd p (map (Z.mul t) w))) pts = map (fun p => zdot g p + t * zdot g w) pts); [|now rewrite EM].
  apply map_ext_in. intros p Hp. rewrite Forall_forall in L3. rewrite zdot_vadd by (rewrite map_length, (L3 p Hp); lia). rewrite zdot_nil_scale. reflexivity.
Qed.
