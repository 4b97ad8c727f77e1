(** One step of the signed decomposition. *)
From Coq Require Import QArith Qfield Lqa.
From Verif Require Import Common ZMat Hermite HermiteProofs Det DetProofs RatVec RatVecSpec RatVecProofs Piped PipedSpec PipedProofs PipedProofs2 PipedProofs3 PipedProofs4 ConeSpec ConeProofs Irrational IrrationalProofs Barvinok BarvinokSpec BarvinokProofs.
Open Scope Q_scope.

Lemma upd_nth_rows (rays : list (list Z)) i z k : (i < length rays)%nat -> nth k (upd rays i z) [] = if (k =? i)%nat then z else nth k rays [].
Proof. intros H. destruct (Nat.eqb_spec k i) as [->|N]; [now apply nth_upd_eq|apply nth_upd_neq; congruence]. Qed.
Lemma n_vectors_upd n rays i z : n_vectors n rays -> length z = n -> n_vectors n (upd rays i z).
Proof. intros [L F] Hz. split; [now rewrite length_upd|]. now apply Forall_upd. Qed.
(** Inside a cone, as a boolean. *)
Definition ind (n : nat) (v : nat -> Q) (x : nat -> Q) (c : scone) : bool := forallb (fun i => Qle_bool (phi n c x i) (phi n c v i)) (seq 0 n).
Lemma ind_iff n v x c : cone_ok n c -> (ind n v x c = true <-> in_cone n v (s_rays c) x).
Proof.
  intros OK. rewrite (in_cone_iff n c OK). unfold ind. rewrite forallb_forall. split; intros H i Hi; [apply Qle_bool_iff, H, in_seq; lia|]. apply in_seq in Hi. apply Qle_bool_iff, H. lia.
Qed.
(** Two combinations of the same vector have the same coefficients. *)
Lemma comb_unique n c a b y i : cone_ok n c -> combination n (s_rays c) a y -> combination n (s_rays c) b y -> (i < n)%nat -> a i == b i.
Proof.
  intros OK A B Hi. pose proof (comb_coord n c OK a y i A Hi) as E1. pose proof (comb_coord n c OK b y i B Hi) as E2. pose proof (c_dlq n c OK i Hi) as P. apply (Qmult_inj_l _ _ (inject_Z (nth i (s_divs c) 0%Z))); [intros Z0; rewrite Z0 in P; discriminate|]. rewrite E1, E2. reflexivity.
Qed.
Lemma cramer n rays z mu i : n_vectors n rays -> length z = n -> combination n rays mu (zpoint z) -> (i < n)%nat ->
  inject_Z (det n (ent (upd rays i z))) == mu i * inject_Z (det n (ent rays)).
Proof.
  intros [L F] Lz C Hi. set (A := ent rays).
  assert (E : det n (ent (upd rays i z)) = zsum n (fun j => (nth j z 0 * adj n A j i)%Z)).
  { rewrite (det_ext n _ (setrow A i (fun j => nth j z 0%Z))).
    - rewrite (det_expand n _ i Hi). apply zsum_ext. intros j Hj. rewrite setrow_at. f_equal. unfold adj. f_equal. apply det_ext. intros a b _ _. unfold minor. apply setrow_ne, skip_neq.
    - intros a b Ha Hb. unfold ent. rewrite upd_nth_rows by lia. destruct (Nat.eqb_spec a i) as [->|N]; [now rewrite setrow_at|]. now rewrite setrow_ne. }
  rewrite E, <- sumq_inj. rewrite (sumq_ext n _ (fun j => sumq n (fun k => mu k * inject_Z (A k j * adj n A j i)))).
  - rewrite sumq_swap. rewrite (sumq_ext n _ (fun k => mu k * inject_Z (det n A * delta k i))).
    + rewrite (sumq_single n _ i Hi); [rewrite delta_eq, Z.mul_1_r; reflexivity|]. intros k Hk N. rewrite delta_neq, Z.mul_0_r by auto. ring.
    + intros k Hk. rewrite sumq_scal, sumq_inj. change (zsum n (fun j => (A k j * adj n A j i)%Z)) with (mmul n A (adj n A) k i). rewrite (adj_r n A k i Hk Hi). reflexivity.
  - intros j Hj. rewrite inject_Z_mult. change (inject_Z (nth j z 0%Z)) with (zpoint z j). rewrite (C j Hj). rewrite Qmult_comm, <- sumq_scal. apply sumq_ext. intros k Hk. rewrite inject_Z_mult. unfold A, ent, vat. ring.
Qed.
Lemma child_comb n rays z lam mu y i : n_vectors n rays -> combination n rays lam y -> combination n rays mu (zpoint z) -> (i < n)%nat -> ~ mu i == 0 ->
  combination n (upd rays i z) (fun k => if (k =? i)%nat then lam i / mu i else lam k - mu k * (lam i / mu i)) y.
Proof.
  intros [L F] CL CM Hi Ni j Hj. rewrite (CL j Hj). set (t := lam i / mu i).
  rewrite (sumq_ext n (fun k => (if (k =? i)%nat then t else lam k - mu k * t) * inject_Z (vat (upd rays i z) k j)) (fun k => lam k * inject_Z (vat rays k j) + (- t) * (mu k * inject_Z (vat rays k j)) + (if (k =? i)%nat then t * zpoint z j else 0))).
  - rewrite !sumq_add, sumq_scal. rewrite <- (CM j Hj). rewrite (sumq_single n (fun k => if (k =? i)%nat then t * zpoint z j else 0) i Hi) by (intros k Hk N; rewrite (proj2 (Nat.eqb_neq k i) N); reflexivity). rewrite Nat.eqb_refl. ring.
  - intros k Hk. unfold vat. rewrite upd_nth_rows by lia. destruct (Nat.eqb_spec k i) as [->|N]; [|ring]. unfold zpoint, t. field. auto.
Qed.
(** The children computed by barvinokStep. *)
Definition coned (l : list (option bcone)) : list (Z * list (list Z)) := flat_map (fun o => match o with None => [] | Some c => [(b_coef c, s_rays (b_cone c))] end) l.
Definition cone_full (n : nat) (c : scone) : Prop := cone_ok n c /\ s_dual_det c = det n (ent (s_facets c)).
Lemma det_and_facets_full n rays : n_vectors n rays -> det n (ent rays) <> 0%Z -> exists c, det_and_facets n rays = Ok c /\ cone_full n c /\ s_rays c = rays.
Proof.
  intros NV D. assert (LI : lin_indep n rays) by now apply det_indep. destruct (det_and_facets_ok n rays NV LI) as (c & E & ER & _ & _ & E2 & _). exists c. split; auto. destruct (det_and_facets_cone_ok n rays c NV LI E) as [OK _]. split; auto. split; auto.
Qed.
Lemma children_ok n coef d rays z : n_vectors n rays -> length z = n -> forall ds i, (forall k, (k < length ds)%nat -> nth k ds 0%Z = det n (ent (upd rays (i + k) z))) ->
  exists ch, children n coef d rays z i ds = Ok ch /\ length ch = length ds /\ forall k, (k < length ds)%nat ->
  (nth k ds 0%Z = 0%Z -> nth k ch None = None) /\
  (nth k ds 0%Z <> 0%Z -> exists c', nth k ch None = Some (mkB (coef * Z.sgn d * Z.sgn (nth k ds 0%Z)) c') /\ cone_full n c' /\ s_rays c' = upd rays (i + k) z).
Proof.
  intros NV Lz. induction ds as [|di ds IH]; intros i H; cbn [children]; [exists []; split; auto; split; auto; cbn; intros; lia|].
  pose proof (H 0%nat ltac:(cbn; lia)) as H0. cbn [nth] in H0. rewrite Nat.add_0_r in H0.
  destruct (IH (S i)) as (ch & E & Lc & Hc); [intros k Hk; specialize (H (S k) ltac:(cbn [length]; lia)); cbn [nth] in H; rewrite H; f_equal; f_equal; f_equal; lia|].
  destruct (Z.eqb_spec di 0) as [Z0|N0].
  - cbn [bind]. rewrite E. cbn [bind]. eexists. split; [reflexivity|]. split; [cbn [length]; lia|]. intros [|k] Hk; cbn [nth]; [split; [auto|lia]|]. destruct (Hc k ltac:(cbn [length] in Hk; lia)) as [A B]. split; auto. intros Nk. destruct (B Nk) as (c' & B1 & B2 & B3). exists c'. split; auto. split; auto. rewrite B3. f_equal. lia.
  - destruct (det_and_facets_full n (upd rays i z) (n_vectors_upd n rays i z NV Lz)) as (c' & E' & F' & R'); [congruence|]. unfold replace_ray. rewrite E'. cbn [bind]. rewrite E. cbn [bind]. eexists. split; [reflexivity|]. split; [cbn [length]; lia|]. intros [|k] Hk; cbn [nth].
    + split; [intros; lia|]. intros _. exists c'. split; auto. split; auto. now rewrite Nat.add_0_r.
    + destruct (Hc k ltac:(cbn [length] in Hk; lia)) as [A B]. split; auto. intros Nk. destruct (B Nk) as (c2 & B1 & B2 & B3). exists c2. split; auto. split; auto. rewrite B3. f_equal. lia.
Qed.
Lemma sgn_mu d di mu : d <> 0%Z -> inject_Z di == mu * inject_Z d -> (Z.sgn d * Z.sgn di)%Z = qsgn mu.
Proof.
  intros Nd E. unfold qsgn. destruct (qpos mu) eqn:P; [apply qpos_iff in P|].
  - destruct (Z.lt_trichotomy d 0) as [D|[D|D]]; [|lia|].
    + assert (di < 0)%Z. { rewrite Zlt_Qlt, E. change (inject_Z 0) with 0. assert (inject_Z d < 0) by (change 0 with (inject_Z 0); now rewrite <- Zlt_Qlt). nra. } rewrite !Z.sgn_neg by lia. reflexivity.
    + assert (0 < di)%Z. { rewrite Zlt_Qlt, E. change (inject_Z 0) with 0. assert (0 < inject_Z d) by (change 0 with (inject_Z 0); now rewrite <- Zlt_Qlt). nra. } rewrite !Z.sgn_pos by lia. reflexivity.
  - destruct (qneg mu) eqn:N; [apply qneg_iff in N|].
    + destruct (Z.lt_trichotomy d 0) as [D|[D|D]]; [|lia|].
      * assert (0 < di)%Z. { rewrite Zlt_Qlt, E. change (inject_Z 0) with 0. assert (inject_Z d < 0) by (change 0 with (inject_Z 0); now rewrite <- Zlt_Qlt). nra. } rewrite Z.sgn_neg, Z.sgn_pos by lia. reflexivity.
      * assert (di < 0)%Z. { rewrite Zlt_Qlt, E. change (inject_Z 0) with 0. assert (0 < inject_Z d) by (change 0 with (inject_Z 0); now rewrite <- Zlt_Qlt). nra. } rewrite Z.sgn_pos, Z.sgn_neg by lia. reflexivity.
    + assert (Z0 : mu == 0). { destruct (Qlt_le_dec 0 mu) as [L|L]; [apply qpos_iff in L; congruence|]. destruct (Qlt_le_dec mu 0) as [L2|L2]; [apply qneg_iff in L2; congruence|]. lra. }
      rewrite Z0, Qmult_0_l in E. assert (di = 0)%Z as -> by (apply (proj1 (inject_Z_injective di 0)); exact E). rewrite Z.sgn_0. lia.
Qed.
Lemma signed_count_list inside (l : list (option bcone)) (g : nat -> Z) :
  (forall k, (k < length l)%nat -> match nth k l None with None => g k = 0%Z | Some c => inside (s_rays (b_cone c)) /\ g k = b_coef c \/ ~ inside (s_rays (b_cone c)) /\ g k = 0%Z end) ->
  signed_count inside (coned l) (zsum (length l) g).
Proof.
  revert g; induction l as [|o l IH]; intros g H; cbn [coned flat_map length]; [constructor|]. rewrite zsum_head. pose proof (H 0%nat ltac:(cbn; lia)) as H0. cbn [nth] in H0.
  assert (T : signed_count inside (coned l) (zsum (length l) (fun k => g (S k)))) by (apply IH; intros k Hk; exact (H (S k) ltac:(cbn [length]; lia))). fold (coned l). destruct o as [c|]; cbn [app].
  - destruct H0 as [[I E]|[I E]]; rewrite E; [constructor; auto|]. rewrite Z.add_0_l. now constructor.
  - rewrite H0, Z.add_0_l. exact T.
Qed.
(** The signed count of the children, at points off the walls. *)
Lemma step_count n c coef z x v ch : (0 < n)%nat -> cone_ok n c -> length z = n -> (exists p mu, (p < n)%nat /\ combination n (s_rays c) mu (zpoint z) /\ 0 < mu p) ->
  length ch = n -> (forall k, (k < n)%nat -> let dk := det n (ent (upd (s_rays c) k z)) in
    (dk = 0%Z -> nth k ch None = None) /\ (dk <> 0%Z -> exists c', nth k ch None = Some (mkB (coef * Z.sgn (s_det c) * Z.sgn dk) c') /\ cone_full n c' /\ s_rays c' = upd (s_rays c) k z)) ->
  ~ on_wall n v (s_rays c) x -> (forall k c', nth k ch None = Some c' -> ~ on_wall n v (s_rays (b_cone c')) x) ->
  zsum n (fun k => match nth k ch None with None => 0%Z | Some c' => if ind n v x (b_cone c') then b_coef c' else 0%Z end) = (if ind n v x c then coef else 0%Z) .
Proof.
  intros Hn OK Lz (p & mu & Hp & CM & Pp) Lch HC OW OWC. pose proof OK as (NV & ED & D0 & DU & DV).
  set (y := fun i => x i - v i). set (lam := fun i => - phi n c y i / inject_Z (nth i (s_divs c) 0%Z)). pose proof (comb_self n c OK y) as CL. change (combination n (s_rays c) lam y) in CL.
  assert (CR : forall k, (k < n)%nat -> inject_Z (det n (ent (upd (s_rays c) k z))) == mu k * inject_Z (s_det c)) by (intros k Hk; rewrite ED; now apply cramer).
  assert (MZ : forall k, (k < n)%nat -> (det n (ent (upd (s_rays c) k z)) = 0%Z <-> mu k == 0)).
  { intros k Hk. pose proof (CR k Hk) as E. pose proof (inj_nz (s_det c) D0) as ND. split; intros H.
    - rewrite H in E. change (inject_Z 0) with 0 in E. symmetry in E. apply Qmult_integral in E as [E|E]; [exact E|contradiction].
    - rewrite H, Qmult_0_l in E. apply (proj1 (inject_Z_injective _ 0)). exact E. }
  assert (G0 : forall k, (k < n)%nat -> ~ lam k == 0) by (intros k Hk E; apply OW; exists lam, k; auto).
  assert (CHC : forall i, (i < n)%nat -> ~ mu i == 0 -> exists c', nth i ch None = Some (mkB (coef * Z.sgn (s_det c) * Z.sgn (det n (ent (upd (s_rays c) i z)))) c') /\ cone_full n c' /\ s_rays c' = upd (s_rays c) i z) by (intros i Hi Ni; apply (HC i Hi); now rewrite MZ).
  assert (G1 : forall i k, (i < n)%nat -> (k < n)%nat -> i <> k -> ~ mu i == 0 -> ~ lam k - mu k * (lam i / mu i) == 0).
  { intros i k Hi Hk N Ni E. destruct (CHC i Hi Ni) as (c' & Ec & Fc & Rc). apply (OWC i _ Ec). cbn [b_cone]. rewrite Rc. eexists. exists k. split; auto. split; [|apply (child_comb n (s_rays c) z lam mu y i NV CL CM Hi Ni)]. cbv beta. rewrite (proj2 (Nat.eqb_neq k i)) by auto. exact E. }
  pose proof (signed_sum n lam mu G0 G1 p Hp Pp) as SS.
  assert (AL : allnn n lam = ind n v x c).
  { apply Bool.eq_iff_eq_true. rewrite allnn_iff, (ind_iff n v x c OK). split.
    - intros H. exists lam. auto.
    - intros (a & Pa & Ca) k Hk. rewrite (comb_unique n c lam a y k OK CL Ca Hk). now apply Pa. }
  rewrite AL in SS. transitivity (coef * (if ind n v x c then 1 else 0))%Z; [|destruct (ind n v x c); ring]. rewrite <- SS, <- zsum_scal. apply zsum_ext. intros i Hi.
  destruct (Qeq_dec (mu i) 0) as [Z0|Ni].
  - rewrite (proj1 (HC i Hi)) by now rewrite MZ. assert (IB : inb n lam mu i = false) by (destruct (inb n lam mu i) eqn:E; auto; apply inb_iff in E as (E & _); contradiction). rewrite IB. ring.
  - destruct (CHC i Hi Ni) as (c' & Ec & Fc & Rc). rewrite Ec. cbn [b_cone b_coef].
    assert (IB : ind n v x c' = inb n lam mu i).
    { apply Bool.eq_iff_eq_true. rewrite (ind_iff n v x c' (proj1 Fc)), inb_iff. pose proof (child_comb n (s_rays c) z lam mu y i NV CL CM Hi Ni) as CC. rewrite <- Rc in CC. split.
      - intros (a & Pa & Ca). assert (UQ : forall k, (k < n)%nat -> 0 <= (if (k =? i)%nat then lam i / mu i else lam k - mu k * (lam i / mu i))) by (intros k Hk; pose proof (comb_unique n c' _ a y k (proj1 Fc) CC Ca Hk) as E; cbv beta in E; rewrite E; now apply Pa).
        split; auto. split; [specialize (UQ i Hi); rewrite Nat.eqb_refl in UQ; exact UQ|]. intros k Hk. destruct (Nat.eq_dec k i) as [->|N]; [setoid_replace (lam i - mu i * (lam i / mu i)) with 0 by (field; auto); apply Qle_refl|]. specialize (UQ k Hk). rewrite (proj2 (Nat.eqb_neq k i) N) in UQ. exact UQ.
      - intros (_ & T0 & C). rewrite Rc. eexists. split; [|rewrite Rc in CC; exact CC]. intros k Hk. cbv beta. destruct (Nat.eqb_spec k i) as [->|N]; auto. }
    rewrite IB. destruct (inb n lam mu i); [|ring]. rewrite <- (sgn_mu (s_det c) (det n (ent (upd (s_rays c) i z))) (mu i) D0 (CR i Hi)). ring.
Qed.
(** CheckOmega makes some coordinate positive. *)
Lemma check_omega_ok ker n c z : relation_contract ker -> cone_ok n c -> length z = n -> (exists k, (k < n)%nat /\ nth k z 0%Z <> 0%Z) ->
  let z' := check_omega ker n (s_rays c) z in (z' = z \/ z' = map Z.opp z) /\ length z' = n /\ exists p mu, (p < n)%nat /\ combination n (s_rays c) mu (zpoint z') /\ 0 < mu p.
Proof.
  intros KC OK Lz (k0 & Hk0 & Nz) z'. pose proof OK as (NV & ED & D0 & DU & DV). assert (LI : lin_indep n (s_rays c)) by (apply det_indep; now rewrite <- ED).
  destruct (KC n (s_rays c) z NV LI Lz) as [(i0 & Hi0 & Ni0) REL]. set (r := ker (z :: s_rays c)) in *.
  assert (RL : forall j, (j < n)%nat -> (nth 0 r 0 * nth j z 0 + zsum n (fun i => nth (S i) r 0 * ent (s_rays c) i j) = 0)%Z).
  { intros j Hj. specialize (REL j Hj). rewrite sumz_zsum in REL. replace (n + 1)%nat with (S n) in REL by lia. rewrite zsum_head in REL. exact REL. }
  assert (R0 : nth 0 r 0%Z <> 0%Z).
  { intros Z0. destruct i0 as [|i0]; [contradiction|]. apply Ni0. apply (LI (fun i => nth (S i) r 0%Z)); [|lia]. intros j Hj. rewrite sumz_zsum. specialize (RL j Hj). rewrite Z0 in RL. rewrite Z.mul_0_l, Z.add_0_l in RL. exact RL. }
  set (mu := fun k => - inject_Z (nth (S k) r 0%Z) / inject_Z (nth 0 r 0%Z)). pose proof (inj_nz _ R0) as R0q.
  assert (CM : combination n (s_rays c) mu (zpoint z)).
  { intros j Hj. unfold mu. rewrite (sumq_ext n _ (fun k => (- / inject_Z (nth 0 r 0%Z)) * inject_Z (nth (S k) r 0%Z * ent (s_rays c) k j)%Z)) by (intros k Hk; rewrite inject_Z_mult; unfold vat, ent; field; auto). rewrite sumq_scal, sumq_inj. specialize (RL j Hj). assert (E : zsum n (fun i => (nth (S i) r 0 * ent (s_rays c) i j)%Z) = (- (nth 0 r 0 * nth j z 0))%Z) by lia. rewrite E, inject_Z_opp, inject_Z_mult. unfold zpoint. field. auto. }
  assert (NZM : exists k, (k < n)%nat /\ ~ mu k == 0).
  { destruct (argmin n (fun k => negb (Qeq_bool (mu k) 0)) mu) as [A|(k & Hk & Pk & _)].
    - exfalso. apply Nz. apply (proj1 (inject_Z_injective _ 0)). change (inject_Z (nth k0 z 0%Z)) with (zpoint z k0). rewrite (CM k0 Hk0). rewrite (sumq_ext n _ (fun _ => 0)); [apply sumq_0|]. intros k Hk. specialize (A k Hk). apply negb_false_iff, Qeq_bool_iff in A. rewrite A. ring.
    - exists k. split; auto. intros E. apply Qeq_bool_iff in E. rewrite E in Pk. discriminate. }
  unfold z', check_omega. fold r. destruct (_ || _) eqn:FL.
  - split; auto. split; [now rewrite map_length|]. destruct NZM as (k & Hk & Nk).
    assert (SG : mu k <= 0).
    { unfold mu. apply orb_true_iff in FL as [FL|FL]; rewrite forallb_forall in FL.
      - assert (A0 : (0 <= nth 0 r 0)%Z) by (apply Z.leb_le, (FL 0%nat), in_seq; lia). assert (Ak : (0 <= nth (S k) r 0)%Z) by (apply Z.leb_le, (FL (S k)), in_seq; lia). assert (P0 : 0 < inject_Z (nth 0 r 0%Z)) by (change 0 with (inject_Z 0); rewrite <- Zlt_Qlt; lia). assert (Pk : 0 <= inject_Z (nth (S k) r 0%Z)) by (change 0 with (inject_Z 0); rewrite <- Zle_Qle; lia). apply Qle_shift_div_r; auto. lra.
      - assert (A0 : (nth 0 r 0 <= 0)%Z) by (apply Z.leb_le, (FL 0%nat), in_seq; lia). assert (Ak : (nth (S k) r 0 <= 0)%Z) by (apply Z.leb_le, (FL (S k)), in_seq; lia). assert (P0 : 0 < inject_Z (- nth 0 r 0%Z)) by (change 0 with (inject_Z 0); rewrite <- Zlt_Qlt; lia). assert (Pk : 0 <= inject_Z (- nth (S k) r 0%Z)) by (change 0 with (inject_Z 0); rewrite <- Zle_Qle; lia). rewrite inject_Z_opp in P0, Pk.
        setoid_replace (- inject_Z (nth (S k) r 0%Z) / inject_Z (nth 0 r 0%Z)) with (inject_Z (nth (S k) r 0%Z) / (- inject_Z (nth 0 r 0%Z))) by (field; try split; lra). apply Qle_shift_div_r; auto. lra. }
    exists k, (fun i => - mu i). split; auto. split; [|lra]. intros j Hj. rewrite (sumq_ext n _ (fun i => (-1) * (mu i * inject_Z (vat (s_rays c) i j)))) by (intros; ring). rewrite sumq_scal, <- (CM j Hj). unfold zpoint. rewrite (nth_map0 _ _ _ _ 0%Z) by lia. rewrite inject_Z_opp. ring.
  - split; auto. split; auto. apply orb_false_iff in FL as [F1 F2]. 
    assert (ES : forall (f : Z -> bool), forallb (fun i => f (nth i r 0%Z)) (seq 0 (n + 1)) = false -> exists i, (i <= n)%nat /\ f (nth i r 0%Z) = false).
    { intros f H. destruct (existsb (fun i => negb (f (nth i r 0%Z))) (seq 0 (n + 1))) eqn:EX.
      - apply existsb_exists in EX as (i & Hi & E). apply in_seq in Hi. exists i. split; [lia|]. now apply negb_true_iff.
      - assert (forallb (fun i => f (nth i r 0%Z)) (seq 0 (n + 1)) = true); [|congruence]. apply forallb_forall. intros i Hi. destruct (f (nth i r 0%Z)) eqn:E; auto. assert (existsb (fun i => negb (f (nth i r 0%Z))) (seq 0 (n + 1)) = true) by (apply existsb_exists; exists i; split; auto; now rewrite E). congruence. }
    destruct (ES (fun x => (0 <=? x)%Z) F1) as (i1 & H1 & N1). destruct (ES (fun x => (x <=? 0)%Z) F2) as (i2 & H2 & N2). apply Z.leb_gt in N1, N2.
    destruct (Z.lt_trichotomy (nth 0 r 0%Z) 0) as [S0|[S0|S0]]; [|contradiction|].
    + destruct i2 as [|i2]; [lia|]. exists i2, mu. split; [lia|]. split; auto. unfold mu. assert (P0 : 0 < - inject_Z (nth 0 r 0%Z)) by (rewrite <- inject_Z_opp; change 0 with (inject_Z 0); rewrite <- Zlt_Qlt; lia). assert (P2 : 0 < inject_Z (nth (S i2) r 0%Z)) by (change 0 with (inject_Z 0); rewrite <- Zlt_Qlt; lia).
      setoid_replace (- inject_Z (nth (S i2) r 0%Z) / inject_Z (nth 0 r 0%Z)) with (inject_Z (nth (S i2) r 0%Z) / (- inject_Z (nth 0 r 0%Z))) by (field; try split; lra). apply Qlt_shift_div_l; lra.
    + destruct i1 as [|i1]; [lia|]. exists i1, mu. split; [lia|]. split; auto. unfold mu. assert (P0 : 0 < inject_Z (nth 0 r 0%Z)) by (change 0 with (inject_Z 0); rewrite <- Zlt_Qlt; lia). assert (P2 : 0 < - inject_Z (nth (S i1) r 0%Z)) by (rewrite <- inject_Z_opp; change 0 with (inject_Z 0); rewrite <- Zlt_Qlt; lia). apply Qlt_shift_div_l; lra.
Qed.
