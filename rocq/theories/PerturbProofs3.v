(** The integral over a list of tangent cones. *)
From Coq Require Import QArith Qfield Permutation.
From Verif Require Import Common Rational RationalSpec RationalProofs Trie TrieSpec TrieProofs TrieProofs2 Integ IntegSpec IntegMath IntegProofs IntegProofs2 IntegProofs3 IntegProofs4 IntegProofs5.
From Verif Require Import ZMat Det Perturb PerturbSpec PerturbProofs PerturbProofs2.
Open Scope Z_scope.

Lemma dot_comm : forall a b, dot a b = dot b a.
Proof. induction a as [|x a IH]; intros [|y b]; cbn [dot]; auto. rewrite IH. ring. Qed.
Lemma dotz_dot a b : dotz a b 0 = dot a b.
Proof. rewrite dotz_ok. lia. Qed.
Definition cone_det (n : nat) (c : pcone) : Z := Z.abs (det n (fun j i => nth j (nth i (pc_rays c) []) 0)).
Definition cone_factors (l e : list Z) (c : pcone) : list (Z * Z) := map (fun r => (dot l r, dot e r)) (pc_rays c).
Definition wfcone (n : nat) (c : pcone) : Prop := length (pc_rays c) = n /\ Forall (fun r => length r = n) (pc_rays c).

Definition plain_ok (n : nat) (l : list Z) (c : cterm) : Prop :=
  length (ct_dots c) = n /\
  (dot (pc_vertex (ct_cone c)) l = 0 -> ct_zero c = false /\ lp_const (ct_num c) = 0) /\
  (dot (pc_vertex (ct_cone c)) l <> 0 -> lp_const (ct_num c) = dot (pc_vertex (ct_cone c)) l /\
     map (fun d => (lp_const d, lp_pow d)) (ct_dots c) = map (fun r => (dot l r, 0)) (pc_rays (ct_cone c)) /\
     ct_zero c = existsb (fun r => dot l r =? 0) (pc_rays (ct_cone c)) /\
     ct_det c = mkRat (cone_det n (ct_cone c)) 1).
Lemma existsb_map {A B} (f : A -> B) (g : B -> bool) l : existsb g (map f l) = existsb (fun a => g (f a)) l.
Proof. induction l; cbn; auto. now rewrite IHl. Qed.
Lemma existsb_ext {A} (f g : A -> bool) l : (forall a, f a = g a) -> existsb f l = existsb g l.
Proof. intros H. induction l; cbn; auto. now rewrite H, IHl. Qed.
Lemma dots_plain_ok n l c : n <> O -> wfcone n (ct_cone c) -> length (ct_dots c) = n -> length l = n ->
  exists c', dots_plain l c = Ok c' /\ ct_cone c' = ct_cone c /\ plain_ok n l c'.
Proof.
  intros Hn [W1 W2] L1 L2. unfold dots_plain. cbv zeta. rewrite dotz_dot. destruct (Z.eqb_spec (dot (pc_vertex (ct_cone c)) l) 0) as [E|E].
  - eexists; split; [reflexivity|]. split; [reflexivity|]. unfold plain_ok. cbn [ct_cone ct_dots ct_zero ct_num lp_const]. split; auto. split; auto. intros H; congruence.
  - rewrite W1, L1, Nat.ltb_irrefl. destruct (pc_rays (ct_cone c)) as [|r0 rays] eqn:ER; [cbn in W1; congruence|].
    pose proof (Forall_inv W2) as R0. rewrite R0, L2, Nat.ltb_irrefl, Nat.eqb_refl. cbn [negb].
    eexists; split; [reflexivity|]. split; [reflexivity|]. unfold plain_ok. cbn [ct_cone ct_dots ct_zero ct_num lp_const ct_det].
    rewrite skipn_all2 by lia. rewrite app_nil_r. rewrite map_length, ER, W1. split; auto. split; [intros H; congruence|]. intros _. split; auto.
    split; [rewrite map_map; apply map_ext; intros r; cbn; now rewrite dotz_dot|]. split; [rewrite existsb_map; apply existsb_ext; intros r; cbn; now rewrite dotz_dot|].
    unfold cone_det. now rewrite ER.
Qed.
Lemma try_plain_ok n l : n <> O -> length l = n -> forall cs, Forall (fun c => wfcone n (ct_cone c)) cs -> Forall (fun c => length (ct_dots c) = n) cs ->
  exists cs', try_plain l cs = Ok (cs', existsb ct_zero cs') /\ map ct_cone cs' = map ct_cone cs /\ Forall (plain_ok n l) cs'.
Proof.
  intros Hn L. induction cs as [|c cs IH]; intros HW HL; cbn [try_plain]; [exists []; repeat split; constructor|].
  destruct (dots_plain_ok n l c Hn (Forall_inv HW) (Forall_inv HL) L) as (c' & E & C & P). rewrite E. cbn [bind].
  destruct (IH (Forall_inv_tail HW) (Forall_inv_tail HL)) as (cs' & E' & C' & P'). rewrite E'. cbn [bind fst snd].
  exists (c' :: cs'). cbn [existsb map]. split; auto. split; [congruence|]. constructor; auto.
Qed.
(** after a perturbation *)
Definition eps_ok (e : list Z) (c : cterm) : Prop :=
  ct_zero c = true -> map lp_eps (ct_dots c) = map (fun r => dot e r) (pc_rays (ct_cone c)) /\
    lp_eps (ct_num c) = dot e (pc_vertex (ct_cone c)) /\
    Forall (fun d => ~ (lp_const d = 0 /\ lp_eps d = 0)) (ct_dots c).
Lemma dots_eps_ok e : forall rays ds, length rays = length ds ->
  exists ds' b, dots_eps e rays ds = Ok (ds', b) /\ map (fun d => (lp_const d, lp_pow d)) ds' = map (fun d => (lp_const d, lp_pow d)) ds /\
    (b = false -> map lp_eps ds' = map (fun r => dot e r) rays /\ Forall (fun d => ~ (lp_const d = 0 /\ lp_eps d = 0)) ds') /\
    (b = true <-> exists r d, In (r, d) (combine rays ds) /\ lp_const d = 0 /\ dot e r = 0).
Proof.
  induction rays as [|r rays IH]; intros [|d ds] L; try discriminate; cbn [dots_eps].
  - exists [], false. split; auto. split; auto. split; [intros _; split; [reflexivity|constructor]|]. split; [discriminate|]. intros (? & ? & [] & _).
  - cbn [lp_const lp_eps]. rewrite dotz_dot. destruct (Z.eqb_spec (lp_const d) 0) as [E1|E1]; [destruct (Z.eqb_spec (dot e r) 0) as [E2|E2]|]; cbn [andb].
    + eexists; exists true. split; [reflexivity|]. cbn [map lp_const lp_pow]. split; auto. split; [discriminate|]. split; auto. intros _. exists r, d. split; [now left|auto].
    + destruct (IH ds) as (ds' & b & H1 & H2 & H3 & H4); [now injection L|]. rewrite H1. cbn [bind fst snd]. eexists; exists b. split; [reflexivity|]. cbn [map lp_const lp_pow lp_eps]. split; [now f_equal|].
      split; [intros B; destruct (H3 B) as [H5 H6]; split; [now f_equal|constructor; auto; cbn; tauto]|].
      rewrite H4. split; intros (r' & d' & H & H'); [exists r', d'; split; [now right|auto]|]. destruct H as [H|H]; [injection H as <- <-; tauto|]. exists r', d'. auto.
    + destruct (IH ds) as (ds' & b & H1 & H2 & H3 & H4); [now injection L|]. rewrite H1. cbn [bind fst snd]. eexists; exists b. split; [reflexivity|]. cbn [map lp_const lp_pow lp_eps]. split; [now f_equal|].
      split; [intros B; destruct (H3 B) as [H5 H6]; split; [now f_equal|constructor; auto; cbn; tauto]|].
      rewrite H4. split; intros (r' & d' & H & H'); [exists r', d'; split; [now right|auto]|]. destruct H as [H|H]; [injection H as <- <-; tauto|]. exists r', d'. auto.
Qed.
(** [blocked]: the perturbation e leaves a zero denominator at this cone. *)
Definition blocked (l e : list Z) (c : pcone) : Prop := dot (pc_vertex c) l <> 0 /\ exists r, In r (pc_rays c) /\ dot l r = 0 /\ dot e r = 0.
Lemma combine_dots l rays : forall ds, map (fun d => (lp_const d, lp_pow d)) ds = map (fun r => (dot l r, 0)) rays ->
  forall e, (exists r d, In (r, d) (combine rays ds) /\ lp_const d = 0 /\ dot e r = 0) <-> (exists r, In r rays /\ dot l r = 0 /\ dot e r = 0).
Proof.
  induction rays as [|r rays IH]; intros [|d ds] H e; try discriminate; cbn [combine].
  - split; [intros (? & ? & [] & _)|intros (? & [] & _)].
  - cbn [map] in H. injection H as H0 H1 H2. specialize (IH ds H2 e). split.
    + intros (r' & d' & [H|H] & A & B); [injection H as <- <-; exists r; split; [now left|split; congruence]|]. destruct (proj1 IH) as (r2 & I & J); [exists r', d'; auto|]. exists r2. split; [now right|auto].
    + intros (r' & [<-|H] & A & B); [exists r, d; split; [now left|split; congruence]|]. destruct (proj2 IH) as (r2 & d2 & I & J); [exists r'; auto|]. exists r2, d2. split; [now right|auto].
Qed.
Lemma dots_pert_ok n l e c : wfcone n (ct_cone c) -> plain_ok n l c ->
  exists c' b, dots_pert e c = Ok (c', b) /\ ct_cone c' = ct_cone c /\ plain_ok n l c' /\ (b = false -> eps_ok e c') /\ (b = true <-> blocked l e (ct_cone c)).
Proof.
  intros W (P1 & P2 & P3). unfold dots_pert. destruct (ct_zero c) eqn:Z0; cbn [negb].
  - assert (NV : dot (pc_vertex (ct_cone c)) l <> 0) by (intros E; destruct (P2 E); congruence).
    destruct (P3 NV) as (Q1 & Q2 & Q3 & Q4).
    destruct (dots_eps_ok e (pc_rays (ct_cone c)) (ct_dots c)) as (ds' & b & H1 & H2 & H3 & H4).
    { rewrite P1. apply W. }
    rewrite H1. cbn [bind fst snd].
    assert (LEN : length ds' = n). { rewrite <- P1, <- (map_length (fun d => (lp_const d, lp_pow d)) ds'), H2, map_length. reflexivity. }
    assert (BL : b = true <-> blocked l e (ct_cone c)).
    { rewrite H4. rewrite (combine_dots l _ _ Q2 e). unfold blocked. tauto. }
    destruct b.
    + eexists; exists true. split; [reflexivity|]. split; [reflexivity|]. split; [|split; [discriminate|auto]].
      unfold plain_ok. cbn [ct_cone ct_dots ct_zero ct_num ct_det]. split; auto. split; [intros E; contradiction|]. intros _. rewrite H2. rewrite <- Q3. auto.
    + eexists; exists false. split; [reflexivity|]. split; [reflexivity|]. split; [|split; [|auto]].
      * unfold plain_ok. cbn [ct_cone ct_dots ct_zero ct_num ct_det lp_const]. split; auto. split; [intros E; contradiction|]. intros _. rewrite H2. rewrite <- Q3. auto.
      * intros _ _. cbn [ct_dots ct_num lp_eps ct_cone]. destruct (H3 eq_refl) as [H5 H6]. rewrite dotz_dot. auto.
  - exists c, false. split; [reflexivity|]. split; [reflexivity|]. split; [unfold plain_ok; rewrite Z0; exact (conj P1 (conj P2 P3))|]. split; [intros _; unfold eps_ok; intros H; congruence|]. split; [discriminate|]. intros [B1 (r & B2 & B3 & B4)]. exfalso.
    destruct (P3 B1) as (Q1 & Q2 & Q3 & Q4). symmetry in Q3. assert (X : existsb (fun r => dot l r =? 0) (pc_rays (ct_cone c)) = true); [|congruence].
    apply existsb_exists. exists r. split; auto. now apply Z.eqb_eq.
Qed.
Lemma try_pert_ok n l e : forall cs, Forall (fun c => wfcone n (ct_cone c)) cs -> Forall (plain_ok n l) cs ->
  exists cs' b, try_pert e cs = Ok (cs', b) /\ map ct_cone cs' = map ct_cone cs /\ Forall (plain_ok n l) cs' /\ (b = false -> Forall (eps_ok e) cs') /\
    (b = true <-> Exists (blocked l e) (map ct_cone cs)).
Proof.
  induction cs as [|c cs IH]; intros HW HP; cbn [try_pert].
  - exists [], false. split; auto. split; auto. split; auto. split; [constructor|]. split; [discriminate|]. intros H; inversion H.
  - destruct (dots_pert_ok n l e c (Forall_inv HW) (Forall_inv HP)) as (c' & b & E & C & P & Q & B). rewrite E. cbn [bind fst snd]. destruct b.
    + exists (c' :: cs), true. split; auto. cbn [map]. split; [congruence|]. split; [constructor; auto; exact (Forall_inv_tail HP)|]. split; [discriminate|]. split; auto. intros _. left. now apply B.
    + destruct (IH (Forall_inv_tail HW) (Forall_inv_tail HP)) as (cs' & b & E' & C' & P' & Q' & B'). rewrite E'. cbn [bind fst snd].
      exists (c' :: cs'), b. split; auto. cbn [map]. split; [congruence|]. split; [constructor; auto|]. split; [intros H; constructor; auto|].
      rewrite B'. split; [intros H; now right|]. intros H. inversion H as [? ? HH|? ? HH]; subst; auto. apply B in HH. discriminate.
Qed.
(** the points tried *)
Lemma fold_gcd_unit : forall l x, Z.gcd x x = 1 -> fold_left Z.gcd l x = 1 \/ (l = []).
Proof.
  induction l as [|y l IH]; intros x H; [now right|]. left. cbn [fold_left]. rewrite Z.gcd_diag in H.
  assert (G : Z.gcd x y = 1). { apply Z.divide_1_r_nonneg; [apply Z.gcd_nonneg|]. destruct (Z.gcd_divide_l x y) as [k Hk]. rewrite <- H. apply Z.divide_abs_r. exists k. exact Hk. }
  rewrite G. destruct (IH 1 eq_refl) as [E| ->]; auto.
Qed.
Lemma pick_ok dim r : dim <> O -> pick dim r = Ok (moment dim (Z.of_nat r mod 100) 1).
Proof.
  intros H. destruct dim as [|d]; [congruence|]. unfold pick. cbv zeta. set (t := Z.of_nat r mod 100). cbn [moment scale_down].
  set (s := 1 * (if t mod 2 =? 0 then 1 else -1)). assert (S1 : Z.gcd s s = 1) by (subst s; destruct (t mod 2 =? 0); reflexivity).
  destruct (fold_gcd_unit (moment d t (1 * t)) s S1) as [E|E].
  - rewrite E. reflexivity.
  - rewrite E. cbn [fold_left]. destruct (Z.ltb_spec 1 s); [|reflexivity]. subst s. destruct (t mod 2 =? 0); lia.
Qed.
Lemma pert_loop_ok n l dim rs : dim <> O -> forall fuel k e cs, Forall (fun c => wfcone n (ct_cone c)) cs -> Forall (plain_ok n l) cs ->
  (exists cs' k' e', pert_loop fuel dim rs k e cs = Ok (cs', k') /\ map ct_cone cs' = map ct_cone cs /\ Forall (plain_ok n l) cs' /\ Forall (eps_ok e') cs') \/
  (pert_loop fuel dim rs k e cs = Err OutOfFuel /\ (fuel <> O -> Exists (blocked l e) (map ct_cone cs)) /\
   forall i, (S i < fuel)%nat -> Exists (blocked l (moment dim (Z.of_nat (rs (k + i)%nat) mod 100) 1)) (map ct_cone cs)).
Proof.
  intros Hd. induction fuel as [|f IH]; intros k e cs HW HP; cbn [pert_loop]; [right; split; auto; split; [congruence|intros; lia]|].
  destruct (try_pert_ok n l e cs HW HP) as (cs' & b & E & C & P & Q & B). rewrite E. cbn [bind fst snd]. destruct b.
  - rewrite pick_ok by auto. cbn [bind].
    assert (HW' : Forall (fun c => wfcone n (ct_cone c)) cs').
    { apply Forall_map. rewrite C. apply Forall_map. exact HW. }
    destruct (IH (S k) (moment dim (Z.of_nat (rs k) mod 100) 1) cs' HW' P) as [(cs2 & k2 & e2 & E2 & C2 & P2 & Q2)|(E2 & B2 & B3)].
    + left. exists cs2, k2, e2. split; auto. split; [congruence|auto].
    + right. split; auto. split; [intros _; now apply B|]. intros i Hi. rewrite <- C. destruct i as [|i].
      * rewrite Nat.add_0_r. apply B2. lia.
      * replace (k + S i)%nat with (S k + i)%nat by lia. apply B3. lia.
  - left. exists cs', k, e. auto.
Qed.
Lemma find_perturbation_ok n l dim rs fuel k cs : n <> O -> dim <> O -> length l = n -> Forall (fun c => wfcone n (ct_cone c)) cs -> Forall (fun c => length (ct_dots c) = n) cs ->
  (exists cs' k' e, find_perturbation fuel dim rs k l cs = Ok (cs', k') /\ map ct_cone cs' = map ct_cone cs /\ Forall (plain_ok n l) cs' /\ Forall (eps_ok e) cs') \/
  (find_perturbation fuel dim rs k l cs = Err OutOfFuel /\
   forall i, (i < fuel)%nat -> Exists (blocked l (moment dim (Z.of_nat (rs (k + i)%nat) mod 100) 1)) (map ct_cone cs)).
Proof.
  intros Hn Hd L HW HL. unfold find_perturbation. destruct (try_plain_ok n l Hn L cs HW HL) as (cs' & E & C & P). rewrite E. cbn [bind fst snd].
  destruct (existsb ct_zero cs') eqn:X.
  - rewrite pick_ok by auto. cbn [bind].
    assert (HW' : Forall (fun c => wfcone n (ct_cone c)) cs').
    { apply Forall_map. rewrite C. apply Forall_map. exact HW. }
    destruct (pert_loop_ok n l dim rs Hd fuel (S k) (moment dim (Z.of_nat (rs k) mod 100) 1) cs' HW' P) as [(cs2 & k2 & e2 & E2 & C2 & P2 & Q2)|(E2 & B2 & B3)].
    + left. exists cs2, k2, e2. split; auto. split; [congruence|auto].
    + right. split; auto. intros [|i] Hi; rewrite <- C; [rewrite Nat.add_0_r; apply B2; lia|]. replace (k + S i)%nat with (S k + i)%nat by lia. apply B3. lia.
  - left. exists cs', k, []. split; auto. split; auto. split; auto. apply Forall_forall. intros c Hc Z0. exfalso.
    assert (Y : existsb ct_zero cs' = true) by (apply existsb_exists; exists c; auto). congruence.
Qed.
(** blocked is exactly what makes the loop go on *)
Lemma find_perturbation_blocked n l dim rs fuel k cs : n <> O -> dim <> O -> length l = n -> Forall (fun c => wfcone n (ct_cone c)) cs -> Forall (fun c => length (ct_dots c) = n) cs ->
  (forall i, Exists (blocked l (moment dim (Z.of_nat (rs i) mod 100) 1)) (map ct_cone cs)) -> find_perturbation fuel dim rs k l cs = Err OutOfFuel.
Proof.
  intros Hn Hd L HW HL HB. unfold find_perturbation. destruct (try_plain_ok n l Hn L cs HW HL) as (cs' & E & C & P). rewrite E. cbn [bind fst snd].
  assert (X : existsb ct_zero cs' = true).
  { specialize (HB O). rewrite <- C in HB. apply Exists_exists in HB as (c & Hc & B1 & r & B2 & B3 & B4). apply in_map_iff in Hc as (ct & <- & Hct).
    apply existsb_exists. exists ct. split; auto. rewrite Forall_forall in P. destruct (P ct Hct) as (_ & _ & P3). destruct (P3 B1) as (_ & _ & Q3 & _). rewrite Q3.
    apply existsb_exists. exists r. split; auto. now apply Z.eqb_eq. }
  rewrite X, pick_ok by auto. cbn [bind].
  assert (HW' : Forall (fun c => wfcone n (ct_cone c)) cs').
  { apply Forall_map. rewrite C. apply Forall_map. exact HW. }
  rewrite <- C in HB. clear E C X HW HL cs.
  assert (G : forall fuel k e cs, Forall (fun c => wfcone n (ct_cone c)) cs -> Forall (plain_ok n l) cs ->
    (forall i, Exists (blocked l (moment dim (Z.of_nat (rs i) mod 100) 1)) (map ct_cone cs)) -> Exists (blocked l e) (map ct_cone cs) -> pert_loop fuel dim rs k e cs = Err OutOfFuel).
  { clear - Hd. induction fuel as [|f IH]; intros k e cs HW HP HB BE; cbn [pert_loop]; auto.
    destruct (try_pert_ok n l e cs HW HP) as (cs' & b & E & C & P & Q & B). rewrite E. cbn [bind fst snd]. apply B in BE as BT. rewrite BT. rewrite pick_ok by auto. cbn [bind]. apply IH; auto.
    - apply Forall_map. rewrite C. apply Forall_map. exact HW.
    - now rewrite C.
    - rewrite C. apply HB. }
  apply G; auto.
Qed.
