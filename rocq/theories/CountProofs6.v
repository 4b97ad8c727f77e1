(** Counting and the Ehrhart polynomial, from the rows and the vertices. *)
From Coq Require Import QArith Qfield Lqa.
From Verif Require Import Common SmithSpec ZMat Hermite HermiteProofs Det DetProofs RatVec RatVecSpec RatVecProofs Piped PipedSpec PipedProofs PipedProofs3 PipedProofs4 ConeSpec ConeProofs Irrational IrrationalProofs IrrationalProofs2 IrrationalProofs3 IntegMath Series DecompProofs Exponential ExpSpec ExpProofs ExpProofs2 ExpProofs3 ExpProofs4 P_Exponential CountSpec Barvinok BarvinokSpec BarvinokProofs BarvinokProofs2 BarvinokProofs3 BarvinokProofs4 P_Barvinok BrionLinear BrionProofs BrionProofs2 BrionProofs3 EulerProofs BrionProofs4 BrionProofs5 Count CountProofs CountProofs2 CountProofs3 CountProofs4 CountProofs5.
Open Scope Z_scope.

Lemma ehrhart_chain g xs : forall a b, chain (ehrhart_upd g) xs a b -> forall t, (poly_at b (inject_Z t) == poly_at a (inject_Z t) + qsum (fun x => ExpProofs4.value g (dilate t (cone_of_item g x))) xs)%Q.
Proof. intros a b H t. induction H as [a|x l a b c U0 H IH]; cbn [qsum]; [ring|]. specialize (U0 t). unfold ehrhart_upd in U0. rewrite IH, U0. ring. Qed.

Section Ehrhart.
Context (P : params) (n : nat) (cones : list vcone).
Context (Hn : (0 < n)%nat) (KC : relation_contract (q_ker P)) (OC : omega_contract (q_omega P)) (PC : q_mode P = DualDecomposition -> primitive_choice (q_omega P)) (Hmax : 0 <= q_max_det P) (XG : xgcd_contract (q_xg P)).
Context (HC : forall c, In c cones -> usable n (fst (fst c)) /\ triangulates n (snd (fst c)) (q_tri P (snd (fst c)))) (HL : forall c, In c cones -> length (snd c) = n).
Theorem ehrhart_cones_ok : exists N, (forall r, In r N -> length r = n /\ exists k, (k < n)%nat /\ nth k r 0 <> 0) /\
  forall guesses, (forall g, In g guesses -> length g = n) -> exists F1, forall f1, (F1 <= f1)%nat -> exists F2, forall f2, (F2 <= f2)%nat ->
  outcome_ok P n (fun l => length l = S n /\ forall t points, Forall (fun p => length p = n) points ->
      negl n (fun x => gcoeff (gpoints points) x - lsum (map (fun c : vcone => hfun n (q_mode P) (fst (fst c)) (snd (fst c)) (vsub x (map (Z.mul t) (snd c)))) cones)) ->
      (poly_at l (inject_Z t) == qnat (length points))%Q)
    N guesses (decomposition_list (fueled P f1 f2) n (ehrhart_consume_cone (fueled P f1 f2) n) (repeat 0%Q (n + 1)) cones guesses).
Proof.
  assert (L0 : length (repeat 0%Q (n + 1)) = S n) by (rewrite repeat_length; lia).
  destruct (list_ok (list Q) P n (fun P' => ehrhart_consume_cone P' n) (fun l => length l = S n) ehrhart_upd (repeat 0%Q (n + 1)) cones Hn KC OC PC Hmax (ehrhart_consumer P n Hn XG) L0 (fun c Hc => conj (proj1 (HC c Hc)) (proj1 (proj2 (HC c Hc))))) as (N & NN & LK).
  exists N. split; [exact NN|]. intros guesses LG. destruct (LK guesses LG) as (F1 & LK1). exists F1. intros f1 Hf1. destruct (LK1 f1 Hf1) as (F2 & LK2). exists F2. intros f2 Hf2. specialize (LK2 f2 Hf2). unfold outcome_ok.
  destruct (decomposition_list (fueled P f1 f2) n (ehrhart_consume_cone (fueled P f1 f2) n) (repeat 0%Q (n + 1)) cones guesses) as [l|e]; [|exact LK2].
  destruct LK2 as (g & pss & xs & Hg & CP & M & GS & EX & CH & Ll). split; [exact Ll|]. intros t points FP BR.
  assert (LS : forall c : vcone, In c cones -> length (map (Z.mul t) (snd c)) = n) by (intros c Hc; rewrite map_length; auto).
  rewrite <- (residues_count n (map (Z.mul t)) P cones pss xs points g (fun c Hc => conj (proj2 (HC c Hc)) (LS c Hc)) CP M GS EX FP BR), (ehrhart_chain g xs _ _ CH t), poly_zero, Qplus_0_l.
  apply qsum_ext. intros [[[w v] d] pts] Hx. unfold ExpProofs4.value, cone_of_item, dilate. cbn [fst snd e_coef e_rays e_sps e_vertex]. rewrite map_map.
  assert (Lw : length w = n).
  { apply (in_map fst) in Hx. rewrite M in Hx. apply in_flat_map in Hx as ([c ps] & H1 & H2). apply in_flat_map in H2 as (p & _ & H2). unfold items_of in H2. apply in_map_iff in H2 as (d' & E & _). injection E as <- _ _. apply in_combine_l in H1. cbn [fst snd]. apply HL, H1. }
  rewrite Forall_forall in EX. destruct (EX _ Hx) as (_ & _ & _ & HP).
  assert (EM : map (fun p => zdot g p + t * zdot g w) pts = map (fun p => zdot g (vadd p (map (Z.mul t) w))) pts); [|rewrite EM; reflexivity].
  apply map_ext_in. intros p Hp. apply HP in Hp as [Lp _]. rewrite zdot_vadd by (rewrite map_length; lia). rewrite zdot_nil_scale. reflexivity.
Qed.
End Ehrhart.

Lemma nth_map_in {A B} (h : A -> B) l i d e : (i < length l)%nat -> nth i (map h l) e = h (nth i l d).
Proof. revert i. induction l as [|x l IH]; intros i H; [cbn in H; lia|]. destruct i; [reflexivity|]. cbn [map nth]. apply IH. cbn [length] in H. lia. Qed.
Definition qscale (t : Z) (v : nat -> Q) : nat -> Q := fun k => (inject_Z t * v k)%Q.
Lemma slack_dilate n t c v : (slack n (dilate_row t c) (qscale t v) == inject_Z t * slack n c v)%Q.
Proof.
  unfold slack. rewrite Qmult_plus_distr_r, <- sumq_scal. apply Qplus_comp.
  - destruct c as [|b a]; cbn [dilate_row nth]; [ring|]. rewrite inject_Z_mult. reflexivity.
  - apply sumq_ext. intros k Hk. unfold qscale. replace (nth (S k) (dilate_row t c) 0) with (nth (S k) c 0) by (destruct c; reflexivity). ring.
Qed.
Lemma inject_pos t : 0 < t -> (0 < inject_Z t)%Q.
Proof. intros H. unfold Qlt. cbn. lia. Qed.
Lemma qscale_inv n t v : 0 < t -> exists u, same_point n (qscale t u) v.
Proof. intros H. exists (fun k => v k / inject_Z t)%Q. intros k Hk. unfold qscale. field. pose proof (inject_pos t H). lra. Qed.
Lemma slack_ext n c p q : same_point n p q -> (slack n c p == slack n c q)%Q.
Proof. intros H. unfold slack. apply Qplus_comp; [reflexivity|]. apply sumq_ext. intros k Hk. rewrite (H k Hk). reflexivity. Qed.
Lemma vertex_ext n rows p q : same_point n p q -> is_vertex n rows p -> is_vertex n rows q.
Proof.
  intros H [V1 V2]. split.
  - intros c Hc. rewrite <- (slack_ext n c p q H). now apply V1.
  - intros y Hy. apply V2. intros c Hc T. apply Hy; [exact Hc|]. rewrite <- (slack_ext n c p q H). exact T.
Qed.
Lemma dilate_vertex n t rows v : 0 < t -> (is_vertex n (map (dilate_row t) rows) (qscale t v) <-> is_vertex n rows v).
Proof.
  intros Ht. pose proof (inject_pos t Ht) as Q0. unfold is_vertex, in_polyhedron.
  assert (E0 : forall c, (slack n (dilate_row t c) (qscale t v) == 0 <-> slack n c v == 0)%Q).
  { intros c. rewrite slack_dilate. split; intros H; [|rewrite H; ring]. destruct (Qmult_integral _ _ H) as [X|X]; [rewrite X in Q0; discriminate|exact X]. }
  assert (E1 : forall c, (0 <= slack n (dilate_row t c) (qscale t v) <-> 0 <= slack n c v)%Q).
  { intros c. rewrite slack_dilate. split; intros H; [|apply Qmult_le_0_compat; lra]. apply (Qmult_le_l 0 (slack n c v) _ Q0). now rewrite Qmult_0_r. }
  assert (EL : forall c k, nth (S k) (dilate_row t c) 0 = nth (S k) c 0) by (intros c k; destruct c; reflexivity).
  split; intros [V1 V2]; (split; [intros c Hc|intros y Hy; apply V2; intros c Hc T]).
  - apply E1, V1. now apply in_map.
  - apply in_map_iff in Hc as (c' & <- & Hc). apply E0 in T. rewrite <- (Hy c' Hc T). apply sumq_ext. intros k _. rewrite EL. reflexivity.
  - apply in_map_iff in Hc as (c' & <- & Hc). apply E1. auto.
  - rewrite <- (Hy _ (in_map (dilate_row t) _ _ Hc) (proj2 (E0 c) T)). apply sumq_ext. intros k _. rewrite EL. reflexivity.
Qed.
Lemma dilate_vertices n t rows vs : 0 < t -> all_vertices n rows vs -> all_vertices n (map (dilate_row t) rows) (map (qscale t) vs).
Proof.
  intros Ht (V1 & V2 & V3). pose proof (inject_pos t Ht) as Q0. split; [|split].
  - intros v Hv. apply in_map_iff in Hv as (u & <- & Hu). apply dilate_vertex; auto.
  - intros v Hv. destruct (qscale_inv n t v Ht) as (u & Eu). destruct (V2 u) as (w & Hw & Ew).
    + apply (dilate_vertex n t rows u Ht). apply (vertex_ext n _ v); [|exact Hv]. intros k Hk. symmetry. now apply Eu.
    + exists (qscale t w). split; [now apply in_map|]. intros k Hk. rewrite <- (Eu k Hk). unfold qscale. rewrite (Ew k Hk). reflexivity.
  - intros i j Hij Hj H. rewrite map_length in Hj. rewrite !(nth_map_in _ _ _ origin) in H by lia. apply (V3 i j Hij Hj). intros k Hk. specialize (H k Hk). unfold qscale in H. apply Qmult_inj_l in H; [exact H|lra].
Qed.
Lemma dilate_normals n t rows v : 0 < t -> outer_normals n (map (dilate_row t) rows) (qscale t v) = outer_normals n rows v.
Proof.
  intros Ht. unfold outer_normals. f_equal. induction rows as [|c rows IH]; [reflexivity|]. cbn [map filter].
  assert (E : Qeq_bool (slack n (dilate_row t c) (qscale t v)) 0 = Qeq_bool (slack n c v) 0).
  { apply eq_iff_eq_true. rewrite !Qeq_bool_iff, slack_dilate. split; intros H; [|rewrite H; ring]. destruct (Qmult_integral _ _ H) as [X|X]; [pose proof (inject_pos t Ht) as Q0; rewrite X in Q0; discriminate|exact X]. }
  rewrite E. destruct (Qeq_bool (slack n c v) 0); [|exact IH]. cbn [map]. rewrite IH. f_equal. destruct c; reflexivity.
Qed.
Lemma polb_ext n (y z : nat -> Q) V : (forall k, (k < n)%nat -> (y k == z k)%Q) -> polb n y (gen_rows n V) = polb n z (gen_rows n V).
Proof.
  intros H. apply eq_iff_eq_true. rewrite !gen_polar. unfold below. split; intros B r Hr; specialize (B r Hr).
  - rewrite (sumq_ext n (fun k => z k * zpoint r k)%Q (fun k => y k * zpoint r k)%Q) by (intros k Hk; rewrite (H k Hk); reflexivity). exact B.
  - rewrite (sumq_ext n (fun k => y k * zpoint r k)%Q (fun k => z k * zpoint r k)%Q) by (intros k Hk; rewrite (H k Hk); reflexivity). exact B.
Qed.

Lemma fpol_shift n t v w R x : length x = n -> length w = n -> (forall i, (i < n)%nat -> (inject_Z (nth i w 0%Z) == v i)%Q) -> fpol n origin R (vsub x (map (Z.mul t) w)) = fpol n (qscale t v) R x.
Proof.
  intros Lx Lw H. unfold fpol. f_equal. apply polb_ext. intros k Hk. unfold BrionProofs4.at_, zpoint, origin, qscale. rewrite vsub_nth by (rewrite map_length; lia). rewrite (map_nth_Z t w k). unfold Z.sub. rewrite inject_Z_plus, inject_Z_opp, inject_Z_mult, (H k Hk). ring.
Qed.
Lemma fpol_origin n v R x : (forall k, (k < n)%nat -> (v k == 0)%Q) -> fpol n v R x = fpol n origin R x.
Proof. intros H. unfold fpol. f_equal. apply polb_ext. intros k Hk. unfold BrionProofs4.at_, origin. now rewrite (H k Hk). Qed.

Section Exact.
Context (P : params) (n : nat) (rows : list (list Z)) (vs : list rvec).
Context (Hn : (0 < n)%nat) (KC : relation_contract (q_ker P)) (OC : omega_contract (q_omega P)) (PC : q_mode P = DualDecomposition -> primitive_choice (q_omega P)) (Hmax : 0 <= q_max_det P) (XG : xgcd_contract (q_xg P)).
Context (NM : q_mode P <> IrrationalAllPrimalDecomposition).
Context (LR : forall c, In c rows -> length c = S n) (UV : forall v, In v vs -> usable n v) (AV : all_vertices n rows (map coord vs)).
Context (TR : forall v, In v vs -> triangulates n (outer_normals n rows (coord v)) (q_tri P (outer_normals n rows (coord v)))).

Theorem count_exact_main points : integer_points n rows points -> exists N, (forall r, In r N -> length r = n /\ exists k, (k < n)%nat /\ nth k r 0 <> 0) /\
  forall guesses, (forall g, In g guesses -> length g = n) -> exists F1, forall f1, (F1 <= f1)%nat -> exists F2, forall f2, (F2 <= f2)%nat ->
  outcome_ok P n (fun z => z = Z.of_nat (length points)) N guesses (count (fueled P f1 f2) n guesses rows vs).
Proof.
  intros IP.
  assert (DC : dual_cones n rows vs = Ok (map (fun v => (v, outer_normals n rows (coord v), [])) vs)).
  { apply mapM_all. intros v Hv. rewrite (proj1 (tight_ok n rows v (UV v Hv) LR)). reflexivity. }
  unfold count. rewrite DC. cbn [bind]. apply (count_cones_ok P n rows points (map coord vs)); auto.
  - intros c Hc. apply in_map_iff in Hc as (v & <- & Hv). cbn [fst snd]. auto.
  - intros x Hx. rewrite !map_map. apply lsum_ext. intros v Hv. cbn [fst snd]. rewrite <- fpol_tind; [|apply AV; now apply in_map|exact LR]. unfold hfun. destruct (q_mode P); [reflexivity|reflexivity|congruence].
Qed.
End Exact.
Lemma integer_scale n v : (0 < n)%nat -> dim v = n -> (exists k, reachable positive k v) -> (forall i, (i < n)%nat -> Z.gcd (num_at v i) (den_at v i) = 1 /\ exists z : Z, (coord v i == inject_Z z)%Q) ->
  exists v' w, scale_to_integer v n = Ok (v', w, 1) /\ length w = n /\ forall i, (i < n)%nat -> (inject_Z (nth i w 0%Z) == coord v i)%Q.
Proof.
  intros Hn D (k & R) H. destruct (scale_exact positive k v (or_intror eq_refl) R) as (v' & w & s & SE & Hs & Lw & SV & SP). rewrite D in SE, Lw, SV, SP. specialize (SP eq_refl Hn).
  assert (s = 1).
  { assert (DV : (s | 1)); [|apply Z.divide_1_r_nonneg in DV; lia]. refine (scale_minimal positive k v (or_intror eq_refl) R _ _ v' w s _ 1 _); rewrite ?D; try assumption.
    - intros i Hi. apply H, Hi.
    - intros i Hi. destruct (proj2 (H i Hi)) as (z & E). exists z. rewrite E. ring. }
  subst s. exists v', w. split; [exact SE|]. split; [exact Lw|]. intros i Hi. rewrite (SV i Hi). ring.
Qed.
Lemma zero_usable n : usable n (rv_zero n) /\ forall k, (coord (rv_zero n) k == 0)%Q.
Proof.
  split.
  - split; [|unfold dim; cbn; apply repeat_length]. exists positive, (CZero n). split; [now right|]. split; [cbn; reflexivity|]. exists (rv_zero n), []. split; [reflexivity|]. split; [constructor|reflexivity].
  - intros k. unfold coord, num_at, den_at. cbn [rv_zero enumerator denominator]. rewrite !nth_repeat. reflexivity.
Qed.
Section EhrhartExact.
Context (P : params) (n : nat) (rows : list (list Z)) (vs : list rvec).
Context (Hn : (0 < n)%nat) (KC : relation_contract (q_ker P)) (OC : omega_contract (q_omega P)) (PC : q_mode P = DualDecomposition -> primitive_choice (q_omega P)) (Hmax : 0 <= q_max_det P) (XG : xgcd_contract (q_xg P)).
Context (NM : q_mode P <> IrrationalAllPrimalDecomposition).
Context (LR : forall c, In c rows -> length c = S n) (AV : all_vertices n rows (map coord vs)).
Context (TR : forall v, In v vs -> triangulates n (outer_normals n rows (coord v)) (q_tri P (outer_normals n rows (coord v)))).
Context (IV : forall v, In v vs -> dim v = n /\ (exists k, reachable positive k v) /\ (forall i, (i < n)%nat -> Z.gcd (num_at v i) (den_at v i) = 1 /\ exists z : Z, (coord v i == inject_Z z)%Q)).
Definition ivec (v : rvec) : list Z := match scale_to_integer v n with Ok (_, w, _) => w | Err _ => [] end.
Lemma ivec_ok v : In v vs -> ehrhart_cone n rows v = Ok (rv_zero n, outer_normals n rows (coord v), ivec v) /\ length (ivec v) = n /\ forall i, (i < n)%nat -> (inject_Z (nth i (ivec v) 0%Z) == coord v i)%Q.
Proof.
  intros Hv. destruct (IV v Hv) as (D & R & H). destruct (integer_scale n v Hn D R H) as (v' & w & SE & Lw & SV). unfold ivec. rewrite SE. split; [|auto].
  assert (U : usable n v) by (split; [|exact D]; destruct R as (k & R); exists positive, k; auto).
  unfold ehrhart_cone. rewrite (proj1 (tight_ok n rows v U LR)). cbn [bind]. rewrite SE. reflexivity.
Qed.
Theorem ehrhart_exact_main : exists N, (forall r, In r N -> length r = n /\ exists k, (k < n)%nat /\ nth k r 0 <> 0) /\
  forall guesses, (forall g, In g guesses -> length g = n) -> exists F1, forall f1, (F1 <= f1)%nat -> exists F2, forall f2, (F2 <= f2)%nat ->
  outcome_ok P n (fun l => length l = S n /\ forall t points, 0 < t -> integer_points n (map (dilate_row t) rows) points -> (poly_at l (inject_Z t) == inject_Z (Z.of_nat (length points)))%Q)
    N guesses (Count.ehrhart_polynomial (fueled P f1 f2) n guesses rows vs).
Proof.
  set (cones := map (fun v => (rv_zero n, outer_normals n rows (coord v), ivec v)) vs).
  assert (DC : mapM (ehrhart_cone n rows) vs = Ok cones) by (apply mapM_all; intros v Hv; apply ivec_ok, Hv).
  assert (HC : forall c, In c cones -> usable n (fst (fst c)) /\ triangulates n (snd (fst c)) (q_tri P (snd (fst c)))).
  { intros c Hc. apply in_map_iff in Hc as (v & <- & Hv). cbn [fst snd]. split; [apply zero_usable|auto]. }
  assert (HL : forall c, In c cones -> length (snd c) = n) by (intros c Hc; apply in_map_iff in Hc as (v & <- & Hv); apply ivec_ok, Hv).
  destruct (ehrhart_cones_ok P n cones Hn KC OC PC Hmax XG HC HL) as (N & NN & LK). exists N. split; [exact NN|]. intros guesses LG. destruct (LK guesses LG) as (F1 & LK1). exists F1. intros f1 Hf1. destruct (LK1 f1 Hf1) as (F2 & LK2). exists F2. intros f2 Hf2. specialize (LK2 f2 Hf2). unfold Count.ehrhart_polynomial. rewrite DC. cbn [bind].
  destruct (decomposition_list (fueled P f1 f2) n (ehrhart_consume_cone (fueled P f1 f2) n) (repeat 0%Q (n + 1)) cones guesses) as [l|e]; [|exact LK2]. cbn [outcome_ok] in *. destruct LK2 as [Ll LK2]. split; [exact Ll|]. intros t points Ht IP.
  apply LK2; [exact (points_len n _ points IP)|].
  assert (LD : forall c, In c (map (dilate_row t) rows) -> length c = S n) by (intros c Hc; apply in_map_iff in Hc as (c' & <- & Hc'); specialize (LR c' Hc'); destruct c'; exact LR).
  pose proof (dilate_vertices n t rows _ Ht AV) as DV. refine (negl_ext n _ _ _ (brion_points n _ _ points DV IP)). intros x Hx. cbv beta. f_equal. unfold cones. rewrite !map_map. apply lsum_ext. intros v Hv. cbn [fst snd].
  rewrite <- fpol_tind; [|apply DV, in_map, in_map, Hv|exact LD]. rewrite dilate_normals by exact Ht. destruct (ivec_ok v Hv) as (_ & Li & Ei). rewrite <- (fpol_shift n t (coord v) (ivec v)) by auto. unfold hfun. rewrite <- (fpol_origin n (coord (rv_zero n))) by (intros k _; apply zero_usable). destruct (q_mode P); [reflexivity|reflexivity|congruence].
Qed.
End EhrhartExact.
(** A vertex that is not an integer point. *)
Lemma ehrhart_rational_main P n rows vs guesses : (forall c, In c rows -> length c = S n) -> (forall v, In v vs -> usable n v) -> (exists v i, In v vs /\ (i < n)%nat /\ forall z : Z, ~ (coord v i == inject_Z z)%Q) ->
  Count.ehrhart_polynomial P n guesses rows vs = Err Thrown.
Proof.
  intros LR UV (v & i & Hv & Hi & NZ). unfold Count.ehrhart_polynomial. assert (E : mapM (ehrhart_cone n rows) vs = Err Thrown); [|now rewrite E].
  clear guesses. induction vs as [|u vs IH]; [destruct Hv|]. cbn [mapM]. destruct (tight_ok n rows u (UV u (or_introl eq_refl)) LR) as [E (v' & w & s & SE & Hs & Lw & SV)].
  assert (EC : ehrhart_cone n rows u = if s =? 1 then Ok (rv_zero n, outer_normals n rows (coord u), w) else Err Thrown) by (unfold ehrhart_cone; rewrite E; cbn [bind]; rewrite SE; reflexivity).
  rewrite EC. destruct (s =? 1) eqn:S1; cbn [bind]; [|reflexivity]. destruct Hv as [->|Hv].
  - exfalso. apply Z.eqb_eq in S1. subst s. apply (NZ (nth i w 0)). rewrite (SV i Hi). ring.
  - rewrite IH; [reflexivity| |exact Hv]. intros x Hx. apply UV. now right.
Qed.
