(** The recursive decomposition. *)
From Coq Require Import QArith Qfield Lqa.
From Verif Require Import Common ZMat Hermite HermiteProofs Det DetProofs RatVec RatVecSpec RatVecProofs Piped PipedSpec PipedProofs PipedProofs2 PipedProofs3 PipedProofs4 ConeSpec ConeProofs Irrational IrrationalProofs Barvinok BarvinokSpec BarvinokProofs BarvinokProofs2.
Open Scope Z_scope.

Lemma codes_app {A} (cons : list A -> A -> Z) l1 : forall s l2, codes cons s (l1 ++ l2) = codes cons s l1 ++ codes cons (s ++ l1) l2.
Proof. induction l1 as [|d l1 IH]; intros s l2; cbn [app codes]; [now rewrite app_nil_r|]. rewrite IH. rewrite <- app_assoc. reflexivity. Qed.
Lemma stopped_app {A} (cons : list A -> A -> Z) s l1 r1 l2 r2 : stopped cons s l1 r1 -> r1 <> -1 -> stopped cons (s ++ l1) l2 r2 -> stopped cons s (l1 ++ l2) r2.
Proof.
  intros [_ A1] N1 [B1 B2]. specialize (A1 N1). split; rewrite codes_app.
  - intros E. destruct (B1 E) as (cs & E2 & F). exists (codes cons s l1 ++ cs). rewrite E2, app_assoc. split; auto. apply Forall_app. auto.
  - intros N. apply Forall_app. auto.
Qed.
Lemma stopped_nil {A} (cons : list A -> A -> Z) s r : r <> -1 -> stopped cons s [] r.
Proof. intros N. split; [contradiction|]. intros _. constructor. Qed.
Lemma stopped_one {A} (cons : list A -> A -> Z) s d : stopped cons s [d] (cons s d).
Proof. split; cbn [codes]; intros H; [exists []; rewrite H; split; auto|]. constructor; auto. Qed.

(** determinants of rays and facets *)
Lemma dual_det_prod n c : cone_ok n c -> det n (ent (s_rays c)) * det n (ent (s_facets c)) = fold_right Z.mul 1 (map (fun i => - nth i (s_divs c) 0) (seq 0 n)).
Proof.
  intros OK. rewrite <- (det_tr n (ent (s_facets c))), <- det_mul, <- det_diag. apply det_ext. intros i j Hi Hj. unfold mmul, tr. rewrite (c_pair n c OK i j Hi Hj). destruct (Nat.eqb_spec i j) as [->|]; reflexivity.
Qed.
Lemma prod_opp_nz (f : nat -> Z) l : (forall i, In i l -> 0 < f i) -> fold_right Z.mul 1 (map (fun i => - f i) l) <> 0.
Proof. induction l as [|i l IH]; intros H; cbn [map fold_right]; [lia|]. specialize (IH (fun j Hj => H j (or_intror Hj))). specialize (H i (or_introl eq_refl)). nia. Qed.
Lemma prod_opp_1 (f : nat -> Z) l : (forall i, In i l -> f i = 1) -> Z.abs (fold_right Z.mul 1 (map (fun i => - f i) l)) = 1.
Proof. induction l as [|i l IH]; intros H; cbn [map fold_right]; [reflexivity|]. rewrite Z.abs_mul, IH by (intros j Hj; apply H; now right). rewrite H by now left. reflexivity. Qed.
Lemma dual_det_nz n c : cone_full n c -> s_dual_det c <> 0.
Proof.
  intros [OK E] Z0. pose proof (dual_det_prod n c OK) as P. rewrite <- E, Z0, Z.mul_0_r in P. symmetry in P. revert P. apply prod_opp_nz. intros i Hi. apply in_seq in Hi. apply (c_dl n c OK). lia.
Qed.
Lemma dual_det_1 n c : cone_full n c -> Z.abs (s_det c) = 1 -> Z.abs (s_dual_det c) = 1.
Proof.
  intros [OK E] D1. pose proof (dual_det_prod n c OK) as P. pose proof OK as (NV & ED & D0 & DU & DV). rewrite <- E, <- ED in P. assert (A : Z.abs (s_det c * s_dual_det c) = 1); [|rewrite Z.abs_mul in A; nia].
  rewrite P. apply prod_opp_1. intros i Hi. apply in_seq in Hi. pose proof (c_dl n c OK i ltac:(lia)) as Pi. pose proof (DV i ltac:(lia)) as Di. apply Z.divide_abs_r in Di. rewrite D1 in Di. apply Z.divide_1_r_nonneg in Di; lia.
Qed.
Lemma upd_split {A} (l : list A) : forall i x, (i < length l)%nat -> upd l i x = firstn i l ++ x :: skipn (S i) l.
Proof. induction l as [|y l IH]; intros [|i] x H; cbn [length] in H; try lia; cbn [upd firstn skipn app]; auto. f_equal. apply IH. lia. Qed.
Lemma det_neg_row n rays i z : (i < n)%nat -> length rays = n -> length z = n -> det n (ent (upd rays i (map Z.opp z))) = - det n (ent (upd rays i z)).
Proof.
  intros Hi L Lz. transitivity (zsum n (fun j => (- 1 * nth j z 0) * adj n (ent rays) j i)).
  - rewrite (det_ext n _ (setrow (ent rays) i (fun j => - 1 * nth j z 0))).
    + rewrite (det_expand n _ i Hi). apply zsum_ext. intros j Hj. rewrite setrow_at. f_equal. unfold adj. f_equal. apply det_ext. intros a b _ _. unfold minor. apply setrow_ne, skip_neq.
    + intros a b Ha Hb. unfold ent. rewrite upd_nth_rows by lia. destruct (Nat.eqb_spec a i) as [->|N]; [rewrite setrow_at, (nth_map0 _ _ _ _ 0) by lia; lia|]. now rewrite setrow_ne.
  - rewrite (det_ext n (ent (upd rays i z)) (setrow (ent rays) i (fun j => nth j z 0))).
    + rewrite (det_expand n _ i Hi). rewrite <- (Z.mul_1_l (zsum n (fun j => setrow _ _ _ _ _ * _))), <- Z.mul_opp_l, <- zsum_scal. apply zsum_ext. intros j Hj. rewrite setrow_at.
      assert (EA : adj n (setrow (ent rays) i (fun j0 => nth j0 z 0)) j i = adj n (ent rays) j i); [|rewrite EA; ring]. unfold adj. f_equal. apply det_ext. intros a b _ _. unfold minor. apply setrow_ne, skip_neq.
    + intros a b Ha Hb. unfold ent. rewrite upd_nth_rows by lia. destruct (Nat.eqb_spec a i) as [->|N]; [now rewrite setrow_at|]. now rewrite setrow_ne.
Qed.

Section Dfs.
Context (mode : decomposition) (sv : shortvector) (omega : nat -> list (list Z) -> list Z) (ker : list (list Z) -> list Z) (max_det : Z) (n : nat) (v : rvec) (cons : consumer).
Context (Hn : (0 < n)%nat) (KC : relation_contract ker) (OC : omega_contract omega) (SV : scales n v) (Hmax : 0 <= max_det).

Definition children_of (coef : Z) (c : scone) (z : list Z) (ch : list (option bcone)) : Prop :=
  length ch = n /\ forall k, (k < n)%nat -> let dk := det n (ent (upd (s_rays c) k z)) in
    (dk = 0 -> nth k ch None = None) /\ (dk <> 0 -> exists c', nth k ch None = Some (mkB (coef * Z.sgn (s_det c) * Z.sgn dk) c') /\ cone_full n c' /\ s_rays c' = upd (s_rays c) k z).
Definition good_z (c : scone) (z : list Z) : Prop := length z = n /\ exists p mu, (p < n)%nat /\ combination n (s_rays c) mu (zpoint z) /\ (0 < mu p)%Q.
Lemma replaced_nth rays z k : (k < n)%nat -> nth k (replaced_dets n rays z) 0 = det n (ent (upd rays k z)).
Proof. intros Hk. unfold replaced_dets, replace_ray. now rewrite nth_map_seq by auto. Qed.
Lemma replaced_len rays z : length (replaced_dets n rays z) = n.
Proof. unfold replaced_dets. now rewrite map_length, seq_length. Qed.
Lemma decrease_iff d l : dets_decrease d l = true <-> forall k, (k < length l)%nat -> Z.abs (nth k l 0) < Z.abs d.
Proof.
  unfold dets_decrease. rewrite forallb_forall. split; intros H.
  - intros k Hk. apply Z.ltb_lt, H, nth_In. exact Hk.
  - intros x Hx. apply (In_nth _ _ 0) in Hx as (k & Hk & <-). apply Z.ltb_lt. auto.
Qed.
Lemma step_children coef c z : cone_full n c -> length z = n -> exists ch, children n coef (s_det c) (s_rays c) z 0 (replaced_dets n (s_rays c) z) = Ok ch /\ children_of coef c z ch.
Proof.
  intros [OK _] Lz. pose proof OK as (NV & _). destruct (children_ok n coef (s_det c) (s_rays c) z NV Lz (replaced_dets n (s_rays c) z) 0%nat) as (ch & E & L & H).
  - rewrite replaced_len. intros k Hk. now rewrite replaced_nth.
  - exists ch. split; auto. rewrite replaced_len in *. split; auto. intros k Hk dk. destruct (H k Hk) as [H1 H2]. rewrite (replaced_nth _ _ _ Hk) in *. fold dk in H1, H2. split; auto.
Qed.
Lemma step_spec coef c : cone_full n c ->
  match step sv omega ker n (mkB coef c) with
  | Ok None => sv = SubspaceAvoidingLLL
  | Ok (Some (ch, dets)) => exists z, good_z c z /\ dets = replaced_dets n (s_rays c) z /\ (forall k, (k < n)%nat -> Z.abs (nth k dets 0) < Z.abs (s_det c)) /\ children_of coef c z ch
  | Err e => e = AssertFail /\ sv = LatteLLL /\ forall l, l = 0%nat \/ l = 2%nat -> exists k, (k < n)%nat /\ Z.abs (s_det c) <= Z.abs (det n (ent (upd (s_rays c) k (omega l (s_rays c)))))
  end.
Proof.
  intros FC. pose proof FC as [OK _]. pose proof OK as (NV & ED & D0 & DU & DV). assert (LI : lin_indep n (s_rays c)) by (apply det_indep; now rewrite <- ED).
  unfold step. cbn [b_cone b_coef]. unfold facet_matrix. destruct (facet_rows_ok (s_det c) (s_facets c) (s_divs c)) as (rs & E & _).
  { now rewrite (i_ld n c OK), (i_lf n c OK). }
  { rewrite (i_lf n c OK). intros j Hj. split; [now apply (c_dl n c OK)|now apply DV]. }
  rewrite E. cbn [bind].
  assert (GO : forall l, good_z c (check_omega ker n (s_rays c) (omega l (s_rays c))) /\ (check_omega ker n (s_rays c) (omega l (s_rays c)) = omega l (s_rays c) \/ check_omega ker n (s_rays c) (omega l (s_rays c)) = map Z.opp (omega l (s_rays c)))).
  { intros l. destruct (OC n l (s_rays c) Hn NV LI) as [L NZ]. destruct (check_omega_ok ker n c (omega l (s_rays c)) KC OK L NZ) as (A & B & C). split; auto. split; auto. }
  assert (TRY : forall l r, (let z := check_omega ker n (s_rays c) (omega l (s_rays c)) in let dets := replaced_dets n (s_rays c) z in if dets_decrease (s_det c) dets then bind (children n coef (s_det c) (s_rays c) z 0 dets) (fun ch => Ok (Some (ch, dets))) else r) = r /\ (exists k, (k < n)%nat /\ Z.abs (s_det c) <= Z.abs (det n (ent (upd (s_rays c) k (omega l (s_rays c)))))) \/
    exists ch dets, (let z := check_omega ker n (s_rays c) (omega l (s_rays c)) in let dets := replaced_dets n (s_rays c) z in if dets_decrease (s_det c) dets then bind (children n coef (s_det c) (s_rays c) z 0 dets) (fun ch => Ok (Some (ch, dets))) else r) = Ok (Some (ch, dets)) /\ exists z, good_z c z /\ dets = replaced_dets n (s_rays c) z /\ (forall k, (k < n)%nat -> Z.abs (nth k dets 0) < Z.abs (s_det c)) /\ children_of coef c z ch).
  { intros l r. destruct (GO l) as [G Sg]. destruct (OC n l (s_rays c) Hn NV LI) as [Lo _]. set (z := check_omega ker n (s_rays c) (omega l (s_rays c))) in *. cbv zeta. destruct (dets_decrease (s_det c) (replaced_dets n (s_rays c) z)) eqn:DD.
    - right. destruct (step_children coef c z FC (proj1 G)) as (ch & E1 & E2). rewrite E1. cbn [bind]. exists ch, (replaced_dets n (s_rays c) z). split; auto. exists z. split; auto. split; auto. split; auto. intros k Hk. apply (proj1 (decrease_iff _ _) DD). now rewrite replaced_len.
    - left. split; auto. destruct (existsb (fun k => Z.abs (s_det c) <=? Z.abs (nth k (replaced_dets n (s_rays c) z) 0)) (seq 0 n)) eqn:EX.
      + apply existsb_exists in EX as (k & Hk & Ek). apply in_seq in Hk. exists k. split; [lia|]. apply Z.leb_le in Ek. rewrite replaced_nth in Ek by lia. destruct Sg as [Sg|Sg]; rewrite Sg in Ek; [exact Ek|]. rewrite det_neg_row, Z.abs_opp in Ek; [exact Ek|lia|exact (proj1 NV)|exact Lo].
      + assert (T : dets_decrease (s_det c) (replaced_dets n (s_rays c) z) = true); [|congruence]. apply decrease_iff. rewrite replaced_len. intros k Hk. destruct (Z.ltb_spec (Z.abs (nth k (replaced_dets n (s_rays c) z) 0)) (Z.abs (s_det c))) as [Y|Y]; auto. exfalso. assert (X : existsb (fun k => Z.abs (s_det c) <=? Z.abs (nth k (replaced_dets n (s_rays c) z) 0)) (seq 0 n) = true); [|congruence]. apply existsb_exists. exists k. split; [apply in_seq; lia|]. now apply Z.leb_le. }
  cbv zeta. destruct (TRY 0%nat (match sv with SubspaceAvoidingLLL => Ok None | LatteLLL => let z := check_omega ker n (s_rays c) (omega 2%nat (s_rays c)) in let dets := replaced_dets n (s_rays c) z in if dets_decrease (s_det c) dets then bind (children n coef (s_det c) (s_rays c) z 0 dets) (fun ch => Ok (Some (ch, dets))) else Err AssertFail end)) as [[T X0]|(ch & dets & T & R)]; cbv zeta in T; rewrite T; [|exact R].
  destruct sv; [|reflexivity]. destruct (TRY 2%nat (Err AssertFail)) as [[T2 X]|(ch & dets & T2 & R)]; cbv zeta in T2; rewrite T2; [|exact R]. split; [reflexivity|]. split; [reflexivity|]. intros l [->| ->]; assumption.
Qed.

(** What a call delivers. *)
Definition inside (x : nat -> Q) (rays : list (list Z)) : Prop :=
  match mode with DualDecomposition => in_polar n (coord v) rays x | _ => in_cone n (coord v) rays x end.
Definition pairs (l : list bcone) : list (Z * list (list Z)) := map (fun d => (b_coef d, s_rays (b_cone d))) l.
Definition leaf_ok (K : Z) (d : bcone) : Prop :=
  n_vectors n (s_rays (b_cone d)) /\ lin_indep n (s_rays (b_cone d)) /\ s_det (b_cone d) = det n (vat (s_rays (b_cone d))) /\ Z.abs (b_coef d) = K /\
  (max_det = 0 \/ Z.abs (s_det (b_cone d)) <= max_det \/ sv = SubspaceAvoidingLLL /\ Z.abs (s_det (b_cone d)) <= 200000).
Definition good (K : Z) (g : (nat -> Q) -> Z) (e : Z) (st : bstate) (r : Z) (st' : bstate) : Prop :=
  exists new W, delivered st' = delivered st ++ new /\ proper_normals n W /\
  (mode <> DualDecomposition -> forall x, off_hyperplanes n (coord v) W (zpoint x)) /\
  (r <> -1 -> forall x, off_hyperplanes n (coord v) W x -> signed_count (inside x) (pairs new) (g x)) /\
  Forall (leaf_ok K) new /\ stopped cons (delivered st) new r /\
  total_uni st' = total_uni st + Z.of_nat (length new) /\ cur_depth st' = cur_depth st /\ (r <> -1 -> cur_total st' = cur_total st - e).
Definition value (c : bcone) (x : nat -> Q) : Z := if ind n (coord v) x (b_cone c) then b_coef c else 0.
Definition deliv (c : bcone) : bcone := match mode with DualDecomposition => mkB (b_coef c) (swap_cone (b_cone c)) | _ => c end.
Lemma deliv_coef c : b_coef (deliv c) = b_coef c.
Proof. unfold deliv. now destruct mode. Qed.
Lemma polar_iff c x : in_polar n (coord v) (s_facets c) x <-> forall i, (i < n)%nat -> (phi n c x i <= phi n c (coord v) i)%Q.
Proof.
  unfold in_polar. split; intros H i Hi; specialize (H i Hi); pose proof (phi_sub n c x (coord v) i) as E; unfold phi in *; unfold vat, ent in *; lra.
Qed.
Lemma inside_ind c x : cone_full n (b_cone c) -> (ind n (coord v) x (b_cone c) = true <-> inside x (s_rays (b_cone (deliv c)))).
Proof.
  intros [OK _]. rewrite (ind_iff n _ x _ OK). unfold inside, deliv. destruct mode; try tauto. cbn [b_cone swap_cone s_rays]. rewrite polar_iff. now rewrite (in_cone_iff n _ OK).
Qed.
Lemma deliver_good c st : cone_full n (b_cone c) -> criterion mode c <= max_det \/ max_det = 0 \/ sv = SubspaceAvoidingLLL /\ criterion mode c <= 200000 ->
  let '(r, st') := deliver mode cons c st in good (Z.abs (b_coef c)) (value c) 0 st r st'.
Proof.
  intros FC A. unfold deliver. fold (deliv c). exists [deliv c], []. cbn [delivered total_uni cur_depth cur_total length pairs map].
  assert (LO : leaf_ok (Z.abs (b_coef c)) (deliv c)).
  { pose proof FC as [OK ED2]. pose proof OK as (NV & ED & D0 & DU & DV). unfold leaf_ok. rewrite deliv_coef. unfold deliv, criterion in *. destruct mode; cbn [b_cone swap_cone s_rays s_det].
    - split; [exact (proj1 DU)|]. split; [apply det_indep; rewrite <- ED2; now apply (dual_det_nz n)|]. split; [exact ED2|]. split; auto. tauto.
    - split; [exact NV|]. split; [apply det_indep; now rewrite <- ED|]. split; [exact ED|]. split; auto. tauto.
    - split; [exact NV|]. split; [apply det_indep; now rewrite <- ED|]. split; [exact ED|]. split; auto. tauto. }
  split; auto. split; [intros h []|]. split; [intros _ x h []|]. split.
  { intros _ x _. unfold value. rewrite deliv_coef. destruct (ind n (coord v) x (b_cone c)) eqn:EI.
    - rewrite <- (Z.add_0_r (b_coef c)) at 2. constructor; [now apply inside_ind|constructor].
    - constructor; [|constructor]. intros I. apply inside_ind in I; auto. congruence. }
  split; [constructor; auto|]. split; [apply stopped_one|]. split; [lia|]. split; [reflexivity|]. intros _. lia.
Qed.
Lemma signed_count_app ins l1 k1 : signed_count ins l1 k1 -> forall l2 k2, signed_count ins l2 k2 -> signed_count ins (l1 ++ l2) (k1 + k2).
Proof. induction 1 as [|c r l k I S IH|c r l k I S IH]; intros l2 k2 S2; cbn [app]; auto; [rewrite <- Z.add_assoc; constructor; auto|constructor; auto]. Qed.
Lemma good_seq K g1 g2 e1 e2 st r1 st1 r2 st2 : good K g1 e1 st r1 st1 -> r1 <> -1 -> good K g2 e2 st1 r2 st2 -> good K (fun x => g1 x + g2 x) (e1 + e2) st r2 st2.
Proof.
  intros (n1 & W1 & A1 & A2 & A3 & A4 & A5 & A6 & A7 & A8 & A9) N1 (n2 & W2 & B1 & B2 & B3 & B4 & B5 & B6 & B7 & B8 & B9). exists (n1 ++ n2), (W1 ++ W2).
  split; [rewrite B1, A1, app_assoc; reflexivity|]. split; [intros h H; apply in_app_iff in H as [H|H]; auto|].
  split; [intros M x h H; apply in_app_iff in H as [H|H]; [now apply A3|now apply B3]|].
  split; [intros N2 x OFF; unfold pairs; rewrite map_app; apply signed_count_app; [apply A4; auto|apply B4; auto]; intros h H; apply OFF, in_app_iff; auto|].
  split; [apply Forall_app; auto|]. split; [apply (stopped_app cons _ _ r1); auto; now rewrite <- A1|].
  split; [rewrite B7, A7, app_length; lia|]. split; [congruence|]. intros N2. rewrite B9, A9 by auto. lia.
Qed.
Lemma good_stop K g g' e e' st st1 : good K g e st (-1) st1 -> good K g' e' st (-1) st1.
Proof. intros (n1 & W1 & A1 & A2 & A3 & A4 & A5 & A6 & A7 & A8 & A9). exists n1, W1. repeat (split; [solve [auto | congruence | intros X; congruence]|]). intros X; congruence. Qed.
Lemma good_ext K g g' e st r st' : (forall x, g x = g' x) -> good K g e st r st' -> good K g' e st r st'.
Proof. intros H (n1 & W1 & A1 & A2 & A3 & A4 & A5 & A6 & A7 & A8 & A9). exists n1, W1. split; auto. split; auto. split; auto. split; [intros N x O; rewrite <- H; auto|]. auto. Qed.
(** scan *)
Lemma scan_spec l : forall j mn cur, match scan l j mn cur with
  | None => cur = None /\ forall k, (k < length l)%nat -> nth k l 0 < mn -> nth k l 0 = 0
  | Some i => cur = Some i \/ (j <= i < j + length l)%nat /\ nth (i - j) l 0 <> 0 end.
Proof.
  induction l as [|d l IH]; intros j mn cur; cbn [scan]; [destruct cur; [now left|split; auto; cbn; intros; lia]|].
  destruct ((d <? mn) && negb (d =? 0)) eqn:E.
  - apply andb_true_iff in E as [E1 E2]. apply Z.ltb_lt in E1. apply negb_true_iff, Z.eqb_neq in E2. specialize (IH (S j) d (Some j)). destruct (scan l (S j) d (Some j)) as [i|]; [|destruct IH; discriminate]. destruct IH as [IH|[IH N]].
    + injection IH as <-. right. rewrite Nat.sub_diag. cbn [nth length]. split; [lia|auto].
    + right. cbn [length]. split; [lia|]. replace (i - j)%nat with (S (i - S j)) by lia. exact N.
  - specialize (IH (S j) mn cur). destruct (scan l (S j) mn cur) as [i|]; [destruct IH as [IH|[IH N]]; [now left|right; cbn [length]; split; [lia|]; replace (i - j)%nat with (S (i - S j)) by lia; exact N]|]. destruct IH as [-> IH]. split; auto. intros [|k] Hk L; cbn [nth length] in *; [|apply IH; auto; lia].
    apply andb_false_iff in E as [E|E]; [apply Z.ltb_ge in E; lia|]. apply negb_false_iff, Z.eqb_eq in E. exact E.
Qed.
Definition nonzeros (l : list Z) : nat := length (filter (fun x => 0 <? x) l).
Lemma nonzeros_upd l : forall j, (j < length l)%nat -> 0 < nth j l 0 -> S (nonzeros (upd l j 0)) = nonzeros l.
Proof.
  unfold nonzeros. induction l as [|d l IH]; intros [|j] H P; cbn [length] in H; try lia; cbn [upd nth filter] in *.
  - rewrite (proj2 (Z.ltb_lt 0 d) P). reflexivity.
  - specialize (IH j ltac:(lia) P). destruct (0 <? d); cbn [length]; lia.
Qed.
Lemma nonzeros_le l : (nonzeros l <= length l)%nat.
Proof. unfold nonzeros. induction l as [|d l IH]; cbn [filter length]; [lia|]. destruct (0 <? d); cbn [length]; lia. Qed.
Definition allowed (e : err) : Prop :=
  e = Thrown /\ mode <> DualDecomposition \/ e = Exited /\ sv = SubspaceAvoidingLLL \/ e = AssertFail /\ sv = LatteLLL /\ ~ decreasing n omega.
Definition term (ch : list (option bcone)) (ds : list Z) (x : nat -> Q) (k : nat) : Z :=
  if nth k ds 0 =? 0 then 0 else match nth k ch None with Some c => value c x | None => 0 end.
Lemma loop_ok K rec ch mx : (forall c st k, nth k ch None = Some c -> match rec c st with Ok (r, st') => good K (value c) 0 st r st' | Err e => allowed e end) ->
  forall k ds st, length ds = n -> (nonzeros ds < k)%nat -> (forall i, (i < n)%nat -> 0 <= nth i ds 0 <= mx /\ (nth i ds 0 <> 0 -> exists c, nth i ch None = Some c)) ->
  match loop rec k mx ds ch st with Ok (r, st') => (r = 1 \/ r = -1) /\ good K (fun x => zsum n (term ch ds x)) (Z.of_nat (nonzeros ds)) st r st' | Err e => allowed e end.
Proof.
  intros HR. induction k as [|k IH]; intros ds st L NZ HD; [lia|]. cbn [loop]. pose proof (scan_spec ds 0 (mx + 1) None) as SC. destruct (scan ds 0 (mx + 1) None) as [j|].
  - destruct SC as [SC|[SC N]]; [discriminate|]. rewrite Nat.sub_0_r in N. assert (Hj : (j < n)%nat) by lia. destruct (HD j Hj) as [BJ CJ]. destruct (CJ N) as (c & Ec). rewrite Ec.
    specialize (HR c st j Ec). destruct (rec c st) as [[r st1]|e]; cbn [bind]; [|exact HR].
    set (st2 := mkSt (delivered st1) (total_uni st1) (cur_depth st1) (max_depth st1) (cur_total st1 - 1) (max_total st1)).
    assert (G1 : good K (value c) 1 st r st2).
    { destruct HR as (n1 & W1 & A1 & A2 & A3 & A4 & A5 & A6 & A7 & A8 & A9). exists n1, W1. unfold st2. cbn [delivered total_uni cur_depth cur_total]. repeat (split; [assumption|]). intros NR. specialize (A9 NR). lia. }
    destruct (Z.eqb_spec r (-1)) as [->|NR].
    + split; auto. revert G1. apply good_stop.
    + assert (NU : S (nonzeros (upd ds j 0)) = nonzeros ds) by (apply nonzeros_upd; lia).
      specialize (IH (upd ds j 0) st2). rewrite length_upd in IH. specialize (IH L ltac:(lia)).
      assert (HD2 : forall i, (i < n)%nat -> 0 <= nth i (upd ds j 0) 0 <= mx /\ (nth i (upd ds j 0) 0 <> 0 -> exists c, nth i ch None = Some c)).
      { intros i Hi. destruct (Nat.eq_dec i j) as [->|NE]; [rewrite nth_upd_eq by lia; split; [lia|intros []; reflexivity]|]. rewrite nth_upd_neq by congruence. now apply HD. }
      specialize (IH HD2). destruct (loop rec k mx (upd ds j 0) ch st2) as [[r2 st3]|e]; [|exact IH]. destruct IH as [R2 IH]. split; auto.
      replace (Z.of_nat (nonzeros ds)) with (1 + Z.of_nat (nonzeros (upd ds j 0))) by lia.
      refine (good_ext K _ _ _ _ _ _ _ (good_seq K _ _ _ _ _ _ _ _ _ G1 NR IH)). intros x. cbv beta.
      rewrite (zsum_ext n (term ch ds x) (fun i => (if (i =? j)%nat then value c x else 0) + term ch (upd ds j 0) x i)).
      * rewrite zsum_add. f_equal. rewrite (zsum_single n _ j Hj) by (intros i Hi NE; now rewrite (proj2 (Nat.eqb_neq i j) NE)). now rewrite Nat.eqb_refl.
      * intros i Hi. unfold term. destruct (Nat.eqb_spec i j) as [->|NE]; [rewrite nth_upd_eq by lia; rewrite (proj2 (Z.eqb_neq _ _) N), Ec; cbn; lia|]. rewrite nth_upd_neq by congruence. lia.
  - destruct SC as [_ SC]. assert (Z0 : forall i, (i < n)%nat -> nth i ds 0 = 0) by (intros i Hi; apply SC; [lia|]; specialize (HD i Hi); lia).
    split; auto. assert (NZ0 : nonzeros ds = O).
    { unfold nonzeros. assert (F : filter (fun x => 0 <? x) ds = []); [|now rewrite F]. destruct (filter (fun x => 0 <? x) ds) as [|y l] eqn:F; auto. assert (In y (filter (fun x => 0 <? x) ds)) as H by (rewrite F; now left). apply filter_In in H as [H1 H2]. apply (In_nth _ _ 0) in H1 as (i & Hi & Ey). rewrite <- Ey, Z0 in H2 by lia. discriminate. }
    rewrite NZ0. exists [], []. rewrite app_nil_r. split; auto. split; [intros h []|]. split; [intros _ x h []|]. split.
    + intros _ x _. rewrite (zsum_ext n _ (fun _ => 0)) by (intros i Hi; unfold term; now rewrite Z0). rewrite zsum_0. constructor.
    + split; [constructor|]. split; [now apply stopped_nil|]. split; [cbn; lia|]. split; auto. intros _. cbn. lia.
Qed.

(** walls *)
Lemma facets_proper c : cone_ok n c -> proper_normals n (s_facets c).
Proof.
  intros OK h Hh. apply (In_nth _ _ []) in Hh as (i & Hi & E). rewrite (i_lf n c OK) in Hi. destruct (existsb (fun k => negb (nth k h 0 =? 0)) (seq 0 n)) eqn:EX.
  - apply existsb_exists in EX as (k & Hk & Ek). apply in_seq in Hk. exists k. split; [lia|]. now apply negb_true_iff, Z.eqb_neq in Ek.
  - exfalso. pose proof (c_pair n c OK i i Hi Hi) as P. rewrite Nat.eqb_refl in P. pose proof (c_dl n c OK i Hi) as D. rewrite (zsum_ext n _ (fun _ => 0)) in P; [rewrite zsum_0 in P; lia|].
    intros k Hk. unfold ent at 2. rewrite E. destruct (Z.eqb_spec (nth k h 0) 0) as [->|N]; [ring|]. assert (X : existsb (fun k => negb (nth k h 0 =? 0)) (seq 0 n) = true); [|congruence]. apply existsb_exists. exists k. split; [apply in_seq; lia|]. now apply negb_true_iff, Z.eqb_neq.
Qed.
Lemma off_facets c x : cone_ok n c -> (off_hyperplanes n (coord v) (s_facets c) x <-> forall i, (i < n)%nat -> ~ (phi n c x i == phi n c (coord v) i)%Q).
Proof.
  intros OK. split.
  - intros H i Hi E. apply (H (nth i (s_facets c) [])); [apply nth_In; rewrite (i_lf n c OK); auto|]. pose proof (phi_sub n c x (coord v) i) as P. unfold phi at 1 in P. unfold ent in P. rewrite P, E. ring.
  - intros H h Hh E. apply (In_nth _ _ []) in Hh as (i & Hi & Ei). rewrite (i_lf n c OK) in Hi. apply (H i Hi). pose proof (phi_sub n c x (coord v) i) as P. unfold phi at 1 in P. unfold ent in P. rewrite Ei, E in P. lra.
Qed.
Lemma off_not_wall c x : cone_ok n c -> off_hyperplanes n (coord v) (s_facets c) x -> ~ on_wall n (coord v) (s_rays c) x.
Proof. intros OK H W. apply (on_wall_iff n c OK) in W as (i & Hi & E). exact (proj1 (off_facets c x OK) H i Hi E). Qed.
Lemma check_ok c : cone_full n (b_cone c) ->
  match check_irrational mode n v c with Ok _ => mode <> DualDecomposition -> forall x, off_hyperplanes n (coord v) (s_facets (b_cone c)) (zpoint x) | Err e => allowed e end.
Proof.
  intros [OK _]. unfold check_irrational. destruct (irrational_iff n (b_cone c) OK v SV) as (b & E & HB).
  assert (G : mode <> DualDecomposition -> match (bind (is_irrational n (b_cone c) v) (fun b => if b then Ok tt else Err Thrown)) with Ok _ => mode <> DualDecomposition -> forall x, off_hyperplanes n (coord v) (s_facets (b_cone c)) (zpoint x) | Err e => allowed e end).
  { intros M. rewrite E. cbn [bind]. destruct b; [|left; auto]. intros _ x. apply (off_facets _ _ OK). intros i Hi EQ. rewrite phi_zpoint in EQ. symmetry in EQ. revert EQ. apply (proj1 HB eq_refl i _ Hi). }
  destruct mode; [intros M; now destruct M|apply G; discriminate|apply G; discriminate].
Qed.
Definition child_facets (l : list (option bcone)) : list (list Z) := flat_map (fun o => match o with None => [] | Some c => s_facets (b_cone c) end) l.
Lemma check_children_ok l : (forall c, In (Some c) l -> cone_full n (b_cone c)) ->
  match check_children mode n v l with Ok _ => mode <> DualDecomposition -> forall x, off_hyperplanes n (coord v) (child_facets l) (zpoint x) | Err e => allowed e end.
Proof.
  induction l as [|o l IH]; intros H; cbn [check_children child_facets flat_map]; [intros _ x h []|]. specialize (IH (fun c Hc => H c (or_intror Hc))). destruct o as [c|]; [|exact IH].
  pose proof (check_ok c (H c (or_introl eq_refl))) as C. destruct (check_irrational mode n v c) as [u|e]; cbn [bind]; [|exact C]. destruct (check_children mode n v l) as [u'|e]; [|exact IH]. intros M x h Hh. apply in_app_iff in Hh as [Hh|Hh]; [now apply C|now apply IH].
Qed.
Lemma child_facets_proper l : (forall c, In (Some c) l -> cone_full n (b_cone c)) -> proper_normals n (child_facets l).
Proof. intros H h Hh. apply in_flat_map in Hh as (o & Ho & Hh). destruct o as [c|]; [|destruct Hh]. destruct (H c Ho) as [OK _]. exact (facets_proper _ OK h Hh). Qed.
Lemma good_wall K g1 g2 e st r st' W0 : proper_normals n W0 -> (mode <> DualDecomposition -> forall x, off_hyperplanes n (coord v) W0 (zpoint x)) ->
  (forall x, off_hyperplanes n (coord v) W0 x -> g1 x = g2 x) -> good K g1 e st r st' -> good K g2 e st r st'.
Proof.
  intros P I H (n1 & W1 & A1 & A2 & A3 & A4 & A5 & A6 & A7 & A8 & A9). exists n1, (W0 ++ W1). split; auto. split; [intros h Hh; apply in_app_iff in Hh as [Hh|Hh]; auto|]. split; [intros M x h Hh; apply in_app_iff in Hh as [Hh|Hh]; [now apply I|now apply A3]|].
  split; [|auto]. intros N x OFF. rewrite <- H; [apply A4; auto|]; intros h Hh; apply OFF, in_app_iff; auto.
Qed.
Lemma fold_max_ge l : forall m, m <= fold_left Z.max l m /\ forall x, In x l -> x <= fold_left Z.max l m.
Proof.
  induction l as [|y l IH]; intros m; cbn [fold_left]; [split; [lia|intros x []]|]. destruct (IH (Z.max m y)) as [A B]. split; [lia|]. intros x [<-|Hx]; [lia|auto].
Qed.
Lemma ent_vat l : ent l = vat l. Proof. reflexivity. Qed.
Theorem dfs_ok fuel : forall c st, cone_full n (b_cone c) -> Z.abs (s_det (b_cone c)) < Z.of_nat fuel ->
  match dfs fuel mode sv omega ker max_det n v cons c st with Ok (r, st') => good (Z.abs (b_coef c)) (value c) 0 st r st' | Err e => allowed e end.
Proof.
  induction fuel as [|fuel IH]; intros c st FC HF; [lia|]. cbn [dfs]. set (st0 := mkSt _ _ _ _ _ _).
  assert (G0 : forall g r st', good (Z.abs (b_coef c)) g 0 st0 r st' -> good (Z.abs (b_coef c)) g 0 st r st') by (intros g r st' H; exact H).
  pose proof FC as [OK ED2]. pose proof OK as (NV & ED & D0 & DU & DV).
  assert (CN : criterion mode c <> 0) by (unfold criterion; pose proof (dual_det_nz n _ FC); destruct mode; lia). rewrite (proj2 (Z.eqb_neq _ _) CN).
  pose proof (check_ok c FC) as CK. destruct (check_irrational mode n v c) as [u|e]; cbn [bind]; [|exact CK].
  destruct ((max_det =? 0) || (criterion mode c <=? max_det)) eqn:CR.
  - pose proof (deliver_good c st0 FC) as D. destruct (deliver mode cons c st0) as [r st']. apply G0, D. apply orb_true_iff in CR as [CR|CR]; [apply Z.eqb_eq in CR|apply Z.leb_le in CR]; auto.
  - apply orb_false_iff in CR as [CR1 CR2]. apply Z.eqb_neq in CR1. apply Z.leb_gt in CR2.
    assert (BIG : 1 < Z.abs (s_det (b_cone c))).
    { destruct (Z.eq_dec (Z.abs (s_det (b_cone c))) 1) as [E1|]; [|lia]. exfalso. pose proof (dual_det_1 n _ FC E1). unfold criterion in CR2. destruct mode; lia. }
    pose proof (step_spec (b_coef c) (b_cone c) FC) as ST. replace (mkB (b_coef c) (b_cone c)) with c in ST by now destruct c.
    destruct (step sv omega ker n c) as [[[ch dets]|]|e]; cbn [bind].
    + destruct ST as (z & GZ & -> & DEC & CH). pose proof CH as [LC CHk].
      assert (FULL : forall c', In (Some c') ch -> cone_full n (b_cone c') /\ Z.abs (b_coef c') = Z.abs (b_coef c) /\ Z.abs (s_det (b_cone c')) < Z.abs (s_det (b_cone c))).
      { intros c' Hc. apply (In_nth _ _ None) in Hc as (k & Hk & Ek). rewrite LC in Hk. destruct (CHk k Hk) as [C0 C1]. destruct (Z.eq_dec (det n (ent (upd (s_rays (b_cone c)) k z))) 0) as [Z0|NZ]; [rewrite C0 in Ek by auto; discriminate|]. destruct (C1 NZ) as (c1 & E1 & F1 & R1). rewrite E1 in Ek. injection Ek as <-. cbn [b_cone b_coef]. split; auto. split.
        - assert (AS : forall a, a <> 0 -> Z.abs (Z.sgn a) = 1) by (intros a Na; destruct a; [lia|reflexivity|reflexivity]). rewrite !Z.abs_mul, !AS by auto. lia.
        - specialize (DEC k Hk). rewrite replaced_nth in DEC by auto. destruct F1 as [(_ & ED1 & _) _]. rewrite ED1, R1. exact DEC. }
      pose proof (check_children_ok ch (fun c' Hc => proj1 (FULL c' Hc))) as CC. destruct (check_children mode n v ch) as [u'|e]; cbn [bind]; [|exact CC].
      set (ds := map Z.abs (replaced_dets n (s_rays (b_cone c)) z)). set (mx := fold_left Z.max ds (-1)). set (st1 := mkSt _ _ _ _ _ _).
      assert (Lds : length ds = n) by (unfold ds; now rewrite map_length, replaced_len).
      assert (Nds : forall k, (k < n)%nat -> nth k ds 0 = Z.abs (det n (ent (upd (s_rays (b_cone c)) k z)))) by (intros k Hk; unfold ds; rewrite (nth_map0 _ _ _ _ 0) by (rewrite replaced_len; auto); now rewrite replaced_nth).
      assert (LP := loop_ok (Z.abs (b_coef c)) (dfs fuel mode sv omega ker max_det n v cons) ch mx). 
      assert (HR : forall c0 st k, nth k ch None = Some c0 -> match dfs fuel mode sv omega ker max_det n v cons c0 st with Ok (r, st') => good (Z.abs (b_coef c)) (value c0) 0 st r st' | Err e => allowed e end).
      { intros c0 s k Ek. assert (HI : In (Some c0) ch). { destruct (Nat.lt_ge_cases k (length ch)) as [H|H]; [rewrite <- Ek; now apply nth_In|rewrite nth_overflow in Ek by auto; discriminate]. } destruct (FULL c0 HI) as (F1 & F2 & F3). specialize (IH c0 s F1 ltac:(lia)). rewrite F2 in IH. exact IH. }
      specialize (LP HR (S n) ds st1 Lds). pose proof (nonzeros_le ds) as NL. specialize (LP ltac:(lia)).
      assert (HD : forall i, (i < n)%nat -> 0 <= nth i ds 0 <= mx /\ (nth i ds 0 <> 0 -> exists c0, nth i ch None = Some c0)).
      { intros i Hi. split; [split; [rewrite Nds by auto; lia|apply (proj2 (fold_max_ge ds (-1))), nth_In; lia]|]. intros N. rewrite Nds in N by auto. destruct (CHk i Hi) as [_ C1]. destruct C1 as (c1 & E1 & _); [lia|]. eauto. }
      specialize (LP HD). destruct (loop _ (S n) mx ds ch st1) as [[r st2]|e]; cbn [bind]; [|exact LP]. destruct LP as [_ LP]. apply G0.
      set (st3 := mkSt _ _ _ _ _ _).
      assert (LP2 : good (Z.abs (b_coef c)) (fun x => zsum n (term ch ds x)) 0 st0 r st3).
      { destruct LP as (n1 & W1 & A1 & A2 & A3 & A4 & A5 & A6 & A7 & A8 & A9). exists n1, W1. unfold st1, st3 in *. cbn [delivered total_uni cur_depth cur_total] in *. repeat (split; [assumption|]). split; [lia|]. intros NR. specialize (A9 NR). unfold nonzeros in A9. lia. }
      refine (good_wall _ _ _ _ _ _ _ (s_facets (b_cone c) ++ child_facets ch) _ _ _ LP2).
      * intros h Hh. apply in_app_iff in Hh as [Hh|Hh]; [exact (facets_proper _ OK h Hh)|exact (child_facets_proper ch (fun c' Hc => proj1 (FULL c' Hc)) h Hh)].
      * intros M x h Hh. apply in_app_iff in Hh as [Hh|Hh]; [now apply CK|now apply CC].
      * intros x OFF. unfold value at 1. destruct GZ as [Lz PZ]. rewrite <- (step_count n (b_cone c) (b_coef c) z x (coord v) ch Hn OK Lz PZ LC CHk).
        -- apply zsum_ext. intros k Hk. unfold term. destruct (Z.eqb_spec (nth k ds 0) 0) as [Z0|NZ]; [|reflexivity]. rewrite Nds in Z0 by auto. rewrite (proj1 (CHk k Hk)) by lia. reflexivity.
        -- apply (off_not_wall _ _ OK). intros h Hh. apply OFF, in_app_iff. auto.
        -- intros k c' Ek. assert (HI : In (Some c') ch). { destruct (Nat.lt_ge_cases k (length ch)) as [H|H]; [rewrite <- Ek; now apply nth_In|rewrite nth_overflow in Ek by auto; discriminate]. } destruct (FULL c' HI) as ([OK' _] & _). apply (off_not_wall _ _ OK'). intros h Hh. apply OFF, in_app_iff. right. apply in_flat_map. exists (Some c'). auto.
    + destruct (Z.leb_spec (criterion mode c) 200000) as [L2|L2].
      * pose proof (deliver_good c st0 FC) as D. destruct (deliver mode cons c st0) as [r st']. apply G0, D. auto.
      * right. left. auto.
    + destruct ST as (-> & SL & NL). right. right. split; auto. split; auto. intros DC. assert (LI : lin_indep n (s_rays (b_cone c))) by (apply det_indep; now rewrite <- ED). specialize (DC (s_rays (b_cone c)) NV LI). unfold lowers in DC. rewrite <- ent_vat, <- ED in DC. destruct (DC BIG) as [DL|DL]; [destruct (NL 0%nat (or_introl eq_refl)) as (k & Hk & LE)|destruct (NL 2%nat (or_intror eq_refl)) as (k & Hk & LE)]; specialize (DL k Hk); rewrite <- upd_split in DL by (destruct NV; lia); rewrite <- ent_vat in DL; lia.
Qed.
End Dfs.
