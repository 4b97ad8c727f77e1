(** Facets of a simplicial cone; arithmetic of dual bases. *)
From Verif Require Import Common ZMat Hermite HermiteProofs Det DetProofs Smith SmithProofs Piped.
From Coq Require Import QArith.
From Verif Require Import PipedSpec.
Open Scope Z_scope.

Lemma sumz_zsum n f : sumz n f = zsum n f.
Proof. induction n as [|n IH]; cbn [sumz zsum]; [reflexivity|now rewrite IH]. Qed.
Lemma zsum_divide n f m : (forall k, (k < n)%nat -> (m | f k)) -> (m | zsum n f).
Proof. induction n as [|n IH]; intros H; cbn [zsum]; [apply Z.divide_0_r|]. apply Z.divide_add_r; [apply IH; intros; apply H; lia|apply H; lia]. Qed.
Lemma fold_gcd_div l : forall a m, (m | fold_left Z.gcd l a) <-> (m | a) /\ forall x, In x l -> (m | x).
Proof.
  induction l as [|y l IH]; intros a m; cbn [fold_left]; [split; [intros H; split; auto; intros x []|tauto]|].
  rewrite IH. split.
  - intros [H1 H2]. split; [eapply Z.divide_trans; [exact H1|apply Z.gcd_divide_l]|]. intros x [<-|Hx]; auto. eapply Z.divide_trans; [exact H1|apply Z.gcd_divide_r].
  - intros [H1 H2]. split; [apply Z.gcd_greatest; auto; apply H2; now left|]. intros x Hx. apply H2. now right.
Qed.
Lemma fold_gcd_nonneg l : forall a, 0 <= a -> 0 <= fold_left Z.gcd l a.
Proof. induction l as [|y l IH]; intros a Ha; cbn [fold_left]; auto. apply IH, Z.gcd_nonneg. Qed.
Lemma det_scale_row n A B i g : (i < n)%nat -> (forall k, (k < n)%nat -> A i k = g * B i k) -> (forall a k, (a < n)%nat -> (k < n)%nat -> a <> i -> A a k = B a k) -> det n A = g * det n B.
Proof.
  intros Hi H1 H2. rewrite (det_ext n A (setrow B i (fun k => 0 + g * B i k))).
  - rewrite (det_lin n B i (fun _ => 0) g (B i) Hi). rewrite (ml_zero n (det n) (det_ML n)) by auto. rewrite (ml_row n (det n) (det_ML n)). ring.
  - intros a k Ha Hk. destruct (Nat.eq_dec a i) as [->|N]; [rewrite setrow_at, H1 by auto; ring|rewrite setrow_ne by auto; now apply H2].
Qed.
(** Row r = g r' with r' primitive. *)
Definition cancelled (d : Z) (r r' : list Z) (q : Z) : Prop :=
  length r' = length r /\ 0 < q /\ (exists g, 0 < g /\ Z.abs d = g * q /\ forall k, nth k r 0 = g * nth k r' 0) /\ forall m, (forall x, In x r' -> (m | x)) -> (m | 1).
Lemma cancel_facet_ok d r dual : d <> 0 -> (forall m, (forall x, In x r -> (m | x)) -> (m | d)) -> exists r' q g, cancel_facet d r dual = Ok (r', dual / g, q) /\ cancelled d r r' q /\ 0 < g /\ forall k, nth k r 0 = g * nth k r' 0.
Proof.
  intros Hd H. unfold cancel_facet. cbv zeta. set (g := fold_left Z.gcd r 0).
  assert (GD : forall x, In x r -> (g | x)) by (apply (fold_gcd_div r 0 g), Z.divide_refl).
  assert (GN : 0 <= g) by (apply fold_gcd_nonneg; lia). assert (Gd : (g | d)) by (now apply H). assert (G0 : g <> 0) by (intros E; rewrite E in Gd; apply Z.divide_0_l in Gd; auto).
  rewrite (proj2 (Z.eqb_neq g 0) G0). cbn [negb andb]. assert (Ga : (g | Z.abs d)) by (now apply Z.divide_abs_r). rewrite (proj2 (Z.mod_divide _ _ G0) Ga). cbn [Z.eqb].
  set (r' := if negb (g =? 1) then map (fun x => x / g) r else r). exists r', (Z.abs d / g), g.
  assert (ER : forall k, nth k r 0 = g * nth k r' 0).
  { intros k. unfold r'. destruct (Z.eqb_spec g 1) as [E1|N1]; cbn [negb]; [rewrite E1; ring|]. rewrite <- (Z.div_0_l g G0) at 2. rewrite (map_nth (fun x => x / g) r 0 k).
    destruct (Nat.lt_ge_cases k (length r)) as [L|L]; [|rewrite nth_overflow by auto; rewrite Z.div_0_l by auto; ring]. destruct (GD (nth k r 0) (nth_In _ _ L)) as [c Hc]. rewrite Hc at 2. rewrite Z.div_mul by auto. lia. }
  split; [|split; [|split; [lia|exact ER]]].
  - f_equal. f_equal. f_equal. destruct (Z.eqb_spec g 1) as [->|N1]; cbn [negb]; auto. now rewrite Z.div_1_r.
  - destruct Ga as [c Hc]. rewrite Hc, Z.div_mul by auto. split; [unfold r'; destruct (negb _); auto; apply map_length|]. split; [nia|]. split; [exists g; refine (conj _ (conj _ ER)); lia|].
    intros m Hm. assert (X : (m * g | g)).
    { apply (proj2 (fold_gcd_div r 0 (m * g))). split; [apply Z.divide_0_r|]. intros x Hx. apply In_nth with (d := 0) in Hx as (k & Hk & <-). rewrite ER. destruct (Hm (nth k r' 0)) as [e He]; [apply nth_In; unfold r'; destruct (negb _); rewrite ?map_length; auto|]. exists e. rewrite He. ring. }
    destruct X as [e He]. exists e. nia.
Qed.
Lemma cancel_facets_ok n d rs : d <> 0 -> Forall (fun r => forall m, (forall x, In x r -> (m | x)) -> (m | d)) rs ->
  forall pre, length (pre ++ rs) = n -> exists rs' qs, cancel_facets d rs (det n (ent (pre ++ rs))) = Ok (rs', det n (ent (pre ++ rs')), qs) /\
  length rs' = length rs /\ length qs = length rs /\ forall i, (i < length rs)%nat -> cancelled d (nth i rs []) (nth i rs' []) (nth i qs 0).
Proof.
  intros Hd F. induction F as [|r rs Hr F IH]; intros pre L; cbn [cancel_facets].
  - exists [], []. refine (conj eq_refl (conj eq_refl (conj eq_refl _))). intros i Hi. cbn in Hi. lia.
  - destruct (cancel_facet_ok d r (det n (ent (pre ++ r :: rs))) Hd Hr) as (r' & q & g & E & C & Hg & ER). rewrite E. cbn [bind].
    assert (DD : det n (ent (pre ++ r :: rs)) / g = det n (ent ((pre ++ [r']) ++ rs))).
    { rewrite (det_scale_row n (ent (pre ++ r :: rs)) (ent ((pre ++ [r']) ++ rs)) (length pre) g); [rewrite Z.mul_comm, Z.div_mul; auto; lia| | |].
      - rewrite <- L, app_length. cbn [length]. lia.
      - intros k Hk. unfold ent. rewrite <- app_assoc. cbn [app]. rewrite !app_nth2, !Nat.sub_diag by lia. cbn [nth]. apply ER.
      - intros a k Ha Hk N. unfold ent. rewrite <- app_assoc. cbn [app]. destruct (Nat.lt_ge_cases a (length pre)); [now rewrite !app_nth1 by auto|]. rewrite !app_nth2 by auto. destruct (a - length pre)%nat as [|e] eqn:Ea; [lia|]. reflexivity. }
    rewrite DD. destruct (IH (pre ++ [r'])) as (rs' & qs & E2 & L1 & L2 & H2); [rewrite <- L, !app_length; cbn [length]; lia|]. rewrite E2. cbn [bind]. exists (r' :: rs'), (q :: qs). rewrite <- app_assoc. cbn [app].
    split; [reflexivity|]. cbn [length]. split; [now rewrite L1|]. split; [now rewrite L2|]. intros [|i] Hi; cbn [nth]; auto. apply H2. lia.
Qed.
Lemma indep_det n rays : lin_indep n rays -> det n (ent rays) <> 0.
Proof.
  intros LI Z0. destruct (det_zero_kernel n (ent rays) Z0) as (a & (i & Hi & Na) & H). apply Na. apply (LI a); [|exact Hi]. intros j Hj. rewrite sumz_zsum. now apply H.
Qed.
Lemma det_indep n rays : det n (ent rays) <> 0 -> lin_indep n rays.
Proof.
  intros D a H k Hk. assert (E : det n (ent rays) * a k = 0); [|nia].
  transitivity (zsum n (fun i => a i * mmul n (ent rays) (adj n (ent rays)) i k)).
  - rewrite (zsum_single n _ k Hk); [rewrite (adj_r n (ent rays) k k Hk Hk), delta_eq; ring|]. intros i Hi N. rewrite (adj_r n (ent rays) i k Hi Hk), delta_neq by auto. ring.
  - unfold mmul. rewrite (zsum_ext n _ (fun i => zsum n (fun j => a i * ent rays i j * adj n (ent rays) j k))) by (intros i Hi; rewrite <- zsum_scal; apply zsum_ext; intros; ring).
    rewrite zsum_swap. apply zsum_zero. intros j Hj. rewrite (zsum_ext n _ (fun i => adj n (ent rays) j k * (a i * ent rays i j))) by (intros; ring). rewrite zsum_scal. specialize (H j Hj). rewrite sumz_zsum in H. change (adj n (ent rays) j k * zsum n (fun i => a i * vat rays i j) = 0). rewrite H. ring.
Qed.
Theorem det_and_facets_ok n rays : n_vectors n rays -> lin_indep n rays -> exists c, det_and_facets n rays = Ok c /\ s_rays c = rays /\
  dual_to n rays (s_facets c) (s_divs c) /\ s_det c = det n (ent rays) /\ s_dual_det c = det n (ent (s_facets c)) /\ forall j, (j < n)%nat -> (nth j (s_divs c) 0 | s_det c).
Proof.
  intros [L FL] LI. pose proof (indep_det n rays LI) as D0. unfold det_and_facets. rewrite L, Nat.eqb_refl. cbn [negb]. cbv zeta. rewrite (proj2 (Z.eqb_neq _ _) D0).
  set (d := det n (ent rays)) in *. set (F := map (fun i => map (fun j => - (if d <? 0 then - tab n (adj n (ent rays)) j i else tab n (adj n (ent rays)) j i)) (seq 0 n)) (seq 0 n)).
  assert (Fl : length F = n) by (unfold F; now rewrite map_length, seq_length).
  assert (Fv : forall i j, (i < n)%nat -> (j < n)%nat -> ent F i j = - Z.sgn d * adj n (ent rays) j i).
  { intros i j Hi Hj. unfold F, ent at 1. rewrite !nth_map_seq by auto. rewrite tab_meq by auto. destruct (Z.ltb_spec d 0); [rewrite Z.sgn_neg by auto|rewrite Z.sgn_pos by lia]; ring. }
  assert (Fr : forall i, (i < n)%nat -> length (nth i F []) = n) by (intros i Hi; unfold F; rewrite nth_map_seq by auto; now rewrite map_length, seq_length).
  assert (PR : forall i j, (i < n)%nat -> (j < n)%nat -> zsum n (fun k => ent rays i k * ent F j k) = if (i =? j)%nat then - Z.abs d else 0).
  { intros i j Hi Hj. rewrite (zsum_ext n _ (fun k => - Z.sgn d * (ent rays i k * adj n (ent rays) k j))) by (intros k Hk; rewrite Fv by auto; ring). rewrite zsum_scal. change (- Z.sgn d * mmul n (ent rays) (adj n (ent rays)) i j = if (i =? j)%nat then - Z.abs d else 0).
    rewrite (adj_r n (ent rays) i j Hi Hj). fold d. unfold delta. destruct (i =? j)%nat; [|ring]. pose proof (Z.sgn_abs d). lia. }
  destruct (cancel_facets_ok n d F D0) with (pre := @nil (list Z)) as (fs & qs & E & L1 & L2 & H); [|exact Fl|].
  { apply Forall_forall. intros r Hr m Hm. apply In_nth with (d := []) in Hr as (i & Hi & Er). rewrite Fl in Hi. apply Z.divide_abs_r, Z.divide_opp_r. replace (- Z.abs d) with (zsum n (fun k => ent rays i k * ent F i k)) by (rewrite PR, Nat.eqb_refl by auto; reflexivity).
    assert (X : forall k, (m | ent F i k)). { intros k. unfold ent. rewrite Er. destruct (Nat.lt_ge_cases k (length r)) as [Lk|Lk]; [apply Hm, nth_In; auto|rewrite nth_overflow by auto; apply Z.divide_0_r]. }
    apply zsum_divide. intros k _. apply Z.divide_mul_r, X. }
  cbn [app] in E. rewrite E. cbn [bind]. eexists. split; [reflexivity|]. cbn [s_rays s_det s_dual_det s_facets s_divs]. split; [reflexivity|]. rewrite Fl in L1, L2, H. split; [|split; [reflexivity|split; [reflexivity|]]].
  - assert (NV : n_vectors n fs). { split; [auto|]. apply Forall_forall. intros r Hr. apply In_nth with (d := []) in Hr as (i & Hi & <-). rewrite L1 in Hi. destruct (H i Hi) as (Lr & _). now rewrite Lr, Fr. }
    split; [exact NV|]. split; [auto|]. split; [|split].
    + intros i j Hi Hj. rewrite sumz_zsum. destruct (H j Hj) as (_ & Q0 & (g & G0 & Gq & ER) & _).
      assert (X : g * zsum n (fun k => vat rays i k * vat fs j k) = if (i =? j)%nat then g * - nth j qs 0 else 0).
      { rewrite <- zsum_scal. rewrite (zsum_ext n _ (fun k => ent rays i k * ent F j k)) by (intros k Hk; unfold ent; rewrite ER; unfold vat; ring). rewrite PR by auto. destruct (i =? j)%nat; lia. }
      destruct (i =? j)%nat; nia.
    + intros j Hj. apply (H j Hj).
    + intros j Hj m Hm. destruct (H j Hj) as (Lr & _ & _ & PM). apply PM. intros x Hx. apply In_nth with (d := 0) in Hx as (k & Hk & <-). apply Hm. now rewrite Lr, Fr in Hk.
  - intros j Hj. destruct (H j Hj) as (_ & _ & (g & _ & Gq & _) & _). apply Z.divide_abs_r. exists g. lia.
Qed.
