From Coq Require Import Sorting.Sorted QArith Morphisms.
From Verif Require Import Common Rational RationalSpec RationalProofs Trie TrieSpec TrieProofs.
Open Scope Z_scope.

Lemma rat_add_ok a b : lowest_terms a -> lowest_terms b ->
  lowest_terms (rat_add a b) /\ (value (rat_add a b) == value a + value b)%Q.
Proof.
  intros [Ha Ga] [Hb Gb]. unfold rat_add.
  destruct (canonicalize_correct (num a * den b + num b * den a) (den a * den b)) as [H1 H2]; [nia|].
  split; auto. rewrite H2. rewrite (value_div a), (value_div b) by auto.
  rewrite inject_Z_plus, !inject_Z_mult. field. split; apply inject_nz; lia.
Qed.
Lemma rat_mul_ok a b : lowest_terms a -> lowest_terms b ->
  lowest_terms (rat_mul_fun a b) /\ (value (rat_mul_fun a b) == value a * value b)%Q.
Proof.
  intros [Ha Ga] [Hb Gb]. unfold rat_mul_fun.
  destruct (canonicalize_correct (num a * num b) (den a * den b)) as [H1 H2]; [nia|].
  split; auto. rewrite H2. rewrite (value_div a), (value_div b) by auto.
  rewrite !inject_Z_mult. field. split; apply inject_nz; lia.
Qed.
(** += on distinct objects is [Rational.add_ref] *)
Lemma rat_add_is_add_ref s i j : i <> j -> den (s j) <> 0 ->
  add_ref s i j = Ok (set (set (set s i (mkRat (num (s i) * den (s j) + num (s j) * den (s i)) (den (s i)))) i
     (mkRat (num (s i) * den (s j) + num (s j) * den (s i)) (den (s i) * den (s j)))) i (rat_add (s i) (s j))).
Proof.
  intros H H0. unfold add_ref. rewrite !set_same. rewrite !(set_other _ i j) by auto.
  destruct (Z.eqb_spec (den (s j)) 0); [congruence|]. reflexivity.
Qed.
Lemma rat_zero_ok a : lowest_terms a -> (rat_zero a = true <-> (value a == 0)%Q).
Proof.
  intros L. rewrite (value_zero a L). unfold rat_zero, rat_eqb_z. destruct L as [L1 L2].
  rewrite andb_true_iff, !Z.eqb_eq. split; [tauto|]. intros H. split; auto. rewrite H in L2. cbn in L2. lia.
Qed.

(** ** Coefficients *)
Notation nonzero := (TrieProofs.nonzero rat_zero).
Lemma coefficient_nonzero l d x : Forall (fun p => lowest_terms (fst (fst p))) l ->
  (coefficient (nonzero l) d x == coefficient l d x)%Q.
Proof.
  induction 1 as [|p l Hp HL IH]; cbn [TrieProofs.nonzero filter coefficient]; [reflexivity|].
  destruct (rat_zero (fst (fst p))) eqn:E; cbn [negb]; [|cbn [coefficient]; unfold TrieProofs.nonzero in IH; rewrite IH; reflexivity].
  apply rat_zero_ok in E; auto. unfold TrieProofs.nonzero in IH. rewrite IH. destruct (_ && _); rewrite ?E; ring.
Qed.

Lemma combined_value l : Forall (fun p => lowest_terms (fst (fst p))) l -> forall o d x,
  (match o with Some c => lowest_terms c | None => True end) ->
  match comb_from rat_add l o d x with
  | Some c => lowest_terms c /\ (value c == (match o with Some c => value c | None => 0 end) + coefficient l d x)%Q
  | None => o = None /\ (coefficient l d x == 0)%Q
  end.
Proof.
  induction 1 as [|p l Hp HL IH]; intros o d x Ho.
  - cbn. destruct o; [split; auto; ring|split; reflexivity].
  - cbn [comb_from fold_left coefficient]. destruct ((snd (fst p) =? d) && same_exps (snd p) x) eqn:E.
    + destruct o as [c0|].
      * destruct (rat_add_ok c0 (fst (fst p)) Ho Hp) as [A B].
        specialize (IH (Some (rat_add c0 (fst (fst p)))) d x A). unfold comb_from in IH.
        destruct (fold_left _ l _) as [c|] in *; [|destruct IH; discriminate]. destruct IH as [I1 I2]. split; auto.
        rewrite I2, B. ring.
      * specialize (IH (Some (fst (fst p))) d x Hp). unfold comb_from in IH.
        destruct (fold_left _ l _) as [c|] in *; [|destruct IH; discriminate]. destruct IH as [I1 I2]. split; auto.
        rewrite I2. ring.
    + specialize (IH o d x Ho). unfold comb_from in IH.
      destruct (fold_left _ l _) as [c|] in *; destruct IH as [I1 I2]; split; auto; rewrite I2; ring.
Qed.

Definition triple (t : bterm rat) : rat * Z * list Z := (t_coef t, t_deg t, t_exps t).

Lemma coefficient_nodup out d x c : NoDup (keys out) -> In (mkTerm c x d) out ->
  (coefficient (map triple out) d x == value c)%Q.
Proof.
  induction out as [|t out IH]; intros ND Hin; [destruct Hin|].
  cbn [keys map] in ND. inversion ND as [|? ? N1 N2]; subst. cbn [map coefficient triple fst snd].
  assert (HZ : forall l, ~ In (d, x) (keys l) -> (coefficient (map triple l) d x == 0)%Q).
  { clear. induction l as [|t l IH]; intros H; [reflexivity|]. cbn [map coefficient triple fst snd].
    rewrite IH by (intros Hin; apply H; right; exact Hin).
    destruct ((t_deg t =? d) && same_exps (t_exps t) x) eqn:E; [|ring].
    apply andb_true_iff in E as [E1 E2]. apply Z.eqb_eq in E1. apply same_exps_spec in E2.
    exfalso. apply H. left. congruence. }
  destruct Hin as [->|Hin].
  - cbn [t_deg t_exps t_coef] in *. rewrite Z.eqb_refl, (proj2 (same_exps_spec x x) eq_refl). cbn [andb].
    rewrite HZ by exact N1. ring.
  - rewrite (IH N2 Hin). destruct ((t_deg t =? d) && same_exps (t_exps t) x) eqn:E; [|ring].
    apply andb_true_iff in E as [E1 E2]. apply Z.eqb_eq in E1. apply same_exps_spec in E2.
    exfalso. apply N1. apply in_map_iff. exists (mkTerm c x d). split; auto. cbn. congruence.
Qed.
Lemma coefficient_absent l d x : ~ In (d, x) (keys l) -> (coefficient (map triple l) d x == 0)%Q.
Proof.
  induction l as [|t l IH]; intros H; [reflexivity|]. cbn [map coefficient triple fst snd].
  rewrite IH by (intros Hin; apply H; right; exact Hin).
  destruct ((t_deg t =? d) && same_exps (t_exps t) x) eqn:E; [|ring].
  apply andb_true_iff in E as [E1 E2]. apply Z.eqb_eq in E1. apply same_exps_spec in E2.
  exfalso. apply H. left. congruence.
Qed.

(** A delivered list that represents the finite map [f]. *)
Lemma out_coefficients out (f : Z -> list Z -> option rat) (g : Z -> list Z -> Q) :
  NoDup (keys out) ->
  (forall d x c, In (mkTerm c x d) out <-> f d x = Some c /\ rat_zero c = false) ->
  (forall d x, match f d x with Some c => lowest_terms c /\ (value c == g d x)%Q | None => (g d x == 0)%Q end) ->
  Forall (fun t => lowest_terms (t_coef t) /\ ~ (value (t_coef t) == 0)%Q) out /\
  forall d x, (coefficient (map triple out) d x == g d x)%Q.
Proof.
  intros ND HI HG. split.
  - apply Forall_forall. intros [c x d] Hin. apply HI in Hin as [H1 H2]. specialize (HG d x). rewrite H1 in HG. cbn.
    split; [apply HG|]. intros H. apply rat_zero_ok in H; [congruence|apply HG].
  - intros d x. destruct (f d x) as [c|] eqn:E.
    + specialize (HG d x). rewrite E in HG. destruct HG as [G1 G2]. destruct (rat_zero c) eqn:Ez.
      * rewrite coefficient_absent; [apply rat_zero_ok in Ez; auto; rewrite <- G2, Ez; reflexivity|].
        intros Hin. apply in_map_iff in Hin as ([c1 x1 d1] & H & Hin). inversion H; subst. apply HI in Hin as [H1 H2]. congruence.
      * rewrite <- G2. apply coefficient_nodup; auto. apply HI. auto.
    + specialize (HG d x). rewrite E in HG. rewrite HG. apply coefficient_absent.
      intros Hin. apply in_map_iff in Hin as ([c1 x1 d1] & H & Hin). inversion H; subst. apply HI in Hin as [H1 H2]. congruence.
Qed.

Theorem trie_exact n l : n <> O -> Forall (fun p => lowest_terms (fst (fst p)) /\ length (snd p) = n) l ->
  (exists p, In p l /\ ~ (value (fst (fst p)) == 0)%Q) ->
  exists m out, insert_all rat_add rat_zero l (new_sum n) = Ok m /\ sum_terms rat_zero m = Ok out /\
    NoDup (map (fun t => (t_deg t, t_exps t)) out) /\
    Forall (fun t => lowest_terms (t_coef t) /\ ~ (value (t_coef t) == 0)%Q) out /\
    (forall d x, (coefficient (map triple out) d x == coefficient l d x)%Q) /\
    ((exists d, Forall (fun p => snd (fst p) = d) l) -> StronglySorted (fun a b => lex_lt (t_exps a) (t_exps b)) out).
Proof.
  intros Hn HL (p & Hp & Hv).
  assert (L1 : Forall (fun p => lowest_terms (fst (fst p))) l) by (eapply Forall_impl; [|exact HL]; cbv beta; tauto).
  assert (L2 : Forall (fun p => length (snd p) = n) l) by (eapply Forall_impl; [|exact HL]; cbv beta; tauto).
  assert (NE : nonzero l <> []).
  { intros E. assert (In p (nonzero l)); [|rewrite E in H; destruct H]. unfold TrieProofs.nonzero. apply filter_In. split; auto.
    rewrite Forall_forall in L1. specialize (L1 p Hp). destruct (rat_zero (fst (fst p))) eqn:Ez; auto.
    apply rat_zero_ok in Ez; auto. }
  destruct (trie_map rat_add rat_zero n l Hn L2 NE) as (m & out & A & _ & B & C & D & E).
  exists m, out. split; auto. split; auto. split; [exact C|].
  assert (L3 : Forall (fun p => lowest_terms (fst (fst p))) (nonzero l)).
  { unfold TrieProofs.nonzero. rewrite Forall_forall in *. intros q Hq. apply filter_In in Hq as [Hq _]. auto. }
  destruct (out_coefficients out (combined rat_add (nonzero l)) (fun d x => coefficient l d x) C D) as [F G].
  { intros d x. pose proof (combined_value (nonzero l) L3 None d x I) as H. unfold comb_from in H. unfold combined.
    destruct (fold_left _ (nonzero l) None) as [c|]; destruct H as [H1 H2].
    - split; auto. rewrite H2, coefficient_nonzero by auto. ring.
    - rewrite <- H2. symmetry. apply coefficient_nonzero; auto. }
  split; auto.
Qed.

(** ** Formal sums *)
Fixpoint wsum (g : list Z -> Q) (p : poly) : Q :=
  match p with [] => 0%Q | a :: p' => (fst a * g (snd a) + wsum g p')%Q end.
Fixpoint ksum (g : list Z -> Q) (K : list (list Z)) : Q :=
  match K with [] => 0%Q | k :: K' => (g k + ksum g K')%Q end.
Lemma ksum_add g h K : (ksum (fun k => g k + h k) K == ksum g K + ksum h K)%Q.
Proof. induction K; cbn; [reflexivity|]. rewrite IHK. ring. Qed.
Lemma ksum_ext g h K : (forall k, In k K -> (g k == h k)%Q) -> (ksum g K == ksum h K)%Q.
Proof. induction K; cbn; intros H; [reflexivity|]. rewrite IHK, (H a) by auto. reflexivity. Qed.
Lemma ksum_zero K : (ksum (fun _ => 0%Q) K == 0)%Q.
Proof. induction K; cbn; [reflexivity|]. rewrite IHK. ring. Qed.
Lemma ksum_single K y (v : Q) : NoDup K -> In y K -> (ksum (fun k => if same_exps y k then v else 0%Q) K == v)%Q.
Proof.
  induction 1 as [|k K N1 N2 IH]; intros Hin; [destruct Hin|]. cbn.
  destruct (same_exps y k) eqn:E.
  - apply same_exps_spec in E. subst k. rewrite (ksum_ext _ (fun _ => 0%Q)); [rewrite ksum_zero; ring|].
    intros k Hk. destruct (same_exps y k) eqn:E; [|reflexivity]. apply same_exps_spec in E. subst. contradiction.
  - destruct Hin as [->|Hin]; [rewrite (proj2 (same_exps_spec y y) eq_refl) in E; discriminate|].
    rewrite IH by auto. ring.
Qed.
Lemma wsum_ksum g K p : NoDup K -> (forall a, In a p -> In (snd a) K) -> (wsum g p == ksum (fun k => coef p k * g k) K)%Q.
Proof.
  intros ND. induction p as [|a p IH]; intros H; cbn [wsum coef].
  - rewrite (ksum_ext _ (fun _ => 0%Q)); [now rewrite ksum_zero|]. intros; ring.
  - rewrite IH by (intros; apply H; now right).
    rewrite (ksum_ext (fun k => ((if same_exps (snd a) k then fst a else 0) + coef p k) * g k)%Q
       (fun k => (if same_exps (snd a) k then fst a * g (snd a) else 0) + coef p k * g k)%Q).
    + rewrite ksum_add, ksum_single by (auto; apply H; now left). reflexivity.
    + intros k _. destruct (same_exps (snd a) k) eqn:E; [|ring]. apply same_exps_spec in E. rewrite E. ring.
Qed.
Definition peq (p q : poly) := forall x, (coef p x == coef q x)%Q.
Lemma wsum_peq g p q : peq p q -> (wsum g p == wsum g q)%Q.
Proof.
  intros H. set (K := nodup (list_eq_dec Z.eq_dec) (map snd p ++ map snd q)).
  assert (NK : NoDup K) by apply NoDup_nodup.
  rewrite (wsum_ksum g K p NK), (wsum_ksum g K q NK).
  - apply ksum_ext. intros k _. now rewrite (H k).
  - intros a Ha. apply nodup_In, in_app_iff. right. now apply in_map.
  - intros a Ha. apply nodup_In, in_app_iff. left. now apply in_map.
Qed.
Lemma coef_app p q x : (coef (p ++ q) x == coef p x + coef q x)%Q.
Proof. induction p; cbn; [ring|]. rewrite IHp. ring. Qed.
Lemma coef_filter_box mn mx p x : (coef (truncate mn mx p) x == if in_box mn mx x then coef p x else 0)%Q.
Proof.
  induction p as [|a p IH]; cbn [truncate filter coef]; [destruct in_box; reflexivity|]. unfold truncate in IH.
  destruct (in_box mn mx (snd a)) eqn:E; cbn [coef]; rewrite IH.
  - destruct (same_exps (snd a) x) eqn:E2.
    + apply same_exps_spec in E2. rewrite <- E2, E. reflexivity.
    + destruct in_box; ring.
  - destruct (in_box mn mx x) eqn:E3; [|reflexivity]. destruct (same_exps (snd a) x) eqn:E2; [|ring].
    apply same_exps_spec in E2. congruence.
Qed.
Definition shift_coef (y : list Z) (x : list Z) (z : list Z) : Q := if same_exps (vadd y z) x then 1%Q else 0%Q.
Lemma coef_row a q x : (coef (map (fun b => ((fst a * fst b)%Q, vadd (snd a) (snd b))) q) x == fst a * wsum (shift_coef (snd a) x) q)%Q.
Proof.
  induction q as [|b q IH]; cbn [map coef wsum fst snd]; [ring|]. rewrite IH. unfold shift_coef at 2. destruct same_exps; ring.
Qed.
Lemma coef_pmul p q x : (coef (pmul p q) x == wsum (fun y => wsum (shift_coef y x) q) p)%Q.
Proof.
  unfold pmul. induction p as [|a p IH]; cbn [flat_map wsum]; [reflexivity|]. rewrite coef_app, IH, coef_row. reflexivity.
Qed.
Lemma wsum_ext g h p : (forall y, (g y == h y)%Q) -> (wsum g p == wsum h p)%Q.
Proof. intros H. induction p; cbn; [reflexivity|]. rewrite IHp, H. reflexivity. Qed.
Lemma pmul_peq p p' q q' : peq p p' -> peq q q' -> peq (pmul p q) (pmul p' q').
Proof.
  intros Hp Hq x. rewrite !coef_pmul. rewrite (wsum_peq _ p p' Hp). apply wsum_ext. intros y. now apply wsum_peq.
Qed.
Lemma truncate_peq mn mx p q : peq p q -> peq (truncate mn mx p) (truncate mn mx q).
Proof. intros H x. rewrite !coef_filter_box. destruct in_box; [apply H|reflexivity]. Qed.
Lemma padd_peq p p' q q' : peq p p' -> peq q q' -> peq (padd p q) (padd p' q').
Proof. intros H H0 x. unfold padd. rewrite !coef_app. now rewrite (H x), (H0 x). Qed.

Lemma terms_poly_coef l x : Forall (fun t => t_deg t = -1) l ->
  (coef (terms_poly l) x == coefficient (map triple l) (-1) x)%Q.
Proof.
  induction 1 as [|t l H HL IH]; [reflexivity|]. cbn [terms_poly map coef coefficient triple fst snd].
  rewrite H. cbn [Z.eqb andb]. unfold terms_poly in IH. rewrite IH. reflexivity.
Qed.

(** ** Tries as polynomials *)
Definition lowest (t : bterm rat) := lowest_terms (t_coef t).
Definition gfold_r := @gfold rat rat_add.

Lemma gfold_value l : Forall lowest l -> forall o d x, (match o with Some c => lowest_terms c | None => True end) ->
  match gfold_r l o d x with
  | Some c => lowest_terms c /\ (value c == (match o with Some c => value c | None => 0 end) + coefficient (map triple l) d x)%Q
  | None => o = None /\ (coefficient (map triple l) d x == 0)%Q
  end.
Proof.
  intros HL o d x Ho.
  assert (E : gfold_r l o d x = comb_from rat_add (map triple l) o d x).
  { clear. revert o. induction l as [|t l IH]; intros o; [reflexivity|]. cbn [gfold_r gfold fold_left map comb_from triple fst snd].
    unfold keyb at 2. apply IH. }
  rewrite E. apply combined_value; auto. apply Forall_map. exact HL.
Qed.

(** the trie represents [p] *)
Definition trie_poly (n : nat) (t : trie rat) (p : poly) : Prop :=
  wf n t /\ Forall (fun tm => lowest tm /\ t_deg tm = -1) (flat n t) /\ peq (terms_poly (flat n t)) p.

Lemma trie_poly_terms n t p : trie_poly n t p ->
  exists out, iterate rat_zero t n = Ok out /\ NoDup (map t_exps out) /\
    Forall (fun tm => lowest_terms (t_coef tm) /\ ~ (value (t_coef tm) == 0)%Q /\ t_deg tm = -1 /\ length (t_exps tm) = n) out /\
    peq (terms_poly out) p.
Proof.
  intros (W & L & P). exists (filter (nz rat_zero) (flat n t)). split; [now apply iterate_ok|].
  assert (K := flat_nodup n t W). pose proof (flat_len n t W) as LEN. unfold all_len in LEN.
  assert (F2 : Forall (fun tm => lowest_terms (t_coef tm) /\ ~ (value (t_coef tm) == 0)%Q /\ t_deg tm = -1 /\ length (t_exps tm) = n) (filter (nz rat_zero) (flat n t))).
  { rewrite Forall_forall in *. intros tm Hin. apply filter_In in Hin as [H1 H2]. destruct (L tm H1) as [H3 H4].
    split; [exact H3|]. split; [|split; [exact H4|exact (LEN tm H1)]]. intros Hz. apply rat_zero_ok in Hz; auto. unfold nz in H2. rewrite Hz in H2. discriminate. }
  split; [|split; [exact F2|]].
  - clear -K L. induction (flat n t) as [|a l IH]; cbn [filter map]; [constructor|].
    cbn [keys map] in K. inversion K as [|? ? K1 K2]; subst. inversion L as [|? ? L1 L2]; subst.
    destruct (nz rat_zero a); auto. cbn [map]. constructor; auto. intros Hin. apply K1.
    apply in_map_iff in Hin as (b & Hb & Hf). apply filter_In in Hf as [Hf _]. apply in_map_iff. exists b. split; auto.
    rewrite Forall_forall in L2. destruct (L2 b Hf), L1. congruence.
  - intros x. rewrite <- (P x). clear -L. induction L as [|a l [L1 L2] HL IH]; [reflexivity|].
    cbn [filter terms_poly map coef fst snd]. destruct (nz rat_zero a) eqn:E.
    + cbn [terms_poly map coef fst snd]. unfold terms_poly in IH. rewrite IH. reflexivity.
    + unfold nz in E. apply negb_false_iff, rat_zero_ok in E; auto. unfold terms_poly in IH. rewrite IH.
      destruct same_exps; rewrite ?E; ring.
Qed.

Lemma in_flat_triple n (t : trie rat) tm : wf n t -> In tm (flat n t) -> find_t t (t_deg tm) (t_exps tm) = Some (t_coef tm) /\ length (t_exps tm) = n.
Proof. intros W H. destruct tm as [c x d]. apply (flat_find n) in H as [A B]; auto. Qed.

Lemma fold_poly n (l : list (bterm rat)) t p : n <> O -> all_len n l -> Forall (fun tm => lowest tm /\ t_deg tm = -1) l ->
  (trie_poly n t p \/ (t = empty_trie /\ peq p [])) ->
  exists t', fold_out (fun t tm => insert_term rat_add t (t_coef tm) (t_exps tm) (-1)) l t = Ok t' /\
    ((l = [] /\ t' = t) \/ trie_poly n t' (padd p (terms_poly l))).
Proof.
  intros Hn HL HLow HT.
  assert (HR : ready n t) by (destruct HT as [[W _]|[-> _]]; [left; auto|right; auto]).
  destruct (fold_insert rat_add n (trie_insert_ok rat_add n) Hn l t HL HR) as (t' & E & _ & W & F).
  exists t'. split.
  - rewrite <- E. clear -HL HLow. revert t. induction l as [|a l IH]; intros t; cbn [fold_out]; auto.
    pose proof (Forall_inv HL) as HL1. cbv beta in HL1. pose proof (Forall_inv HLow) as [_ HLow1].
    unfold insert_term at 1. rewrite HL1, HLow1.
    destruct (trie_insert rat_add n t (t_coef a) (t_exps a) 0 (-1)); cbn [bind]; auto.
    apply IH; [exact (Forall_inv_tail HL)|exact (Forall_inv_tail HLow)].
  - destruct l as [|a l0]; [left; split; auto; cbn in E; congruence|]. right. set (l := a :: l0) in *.
    specialize (W ltac:(discriminate)).
    assert (HV : forall d x, length x = n -> match find_t t d x with
       | Some c => lowest_terms c /\ d = -1 /\ (value c == coef p x)%Q | None => d = -1 -> (coef p x == 0)%Q end).
    { intros d x Hx. destruct HT as [(W0 & L0 & P0)|[-> P0]].
      - destruct (find_t t d x) as [c|] eqn:Ef.
        + assert (Hin : In (mkTerm c x d) (flat n t)) by (apply flat_find; auto).
          rewrite Forall_forall in L0. destruct (L0 _ Hin) as [A B]. cbn in A, B. subst d. split; auto. split; auto.
          rewrite <- (P0 x), terms_poly_coef; [|eapply Forall_impl; [|apply Forall_forall; exact L0]; cbv beta; tauto].
          symmetry. apply coefficient_nodup; auto. apply flat_nodup; auto.
        + intros ->. rewrite <- (P0 x), terms_poly_coef; [|eapply Forall_impl; [|exact L0]; cbv beta; tauto].
          apply coefficient_absent. intros Hin. apply in_map_iff in Hin as ([c1 x1 d1] & H & Hin). inversion H; subst.
          apply (flat_find (length x)) in Hin as [_ Hin]; auto. congruence.
      - unfold empty_trie; rewrite find_empty. intros _. apply P0. }
    assert (LL : Forall lowest l) by (eapply Forall_impl; [|exact HLow]; cbv beta; tauto).
    assert (LD : Forall (fun tm => t_deg tm = -1) l) by (eapply Forall_impl; [|exact HLow]; cbv beta; tauto).
    assert (HC0 : forall d x, d <> -1 -> (coefficient (map triple l) d x == 0)%Q).
    { clear -LD. intros d x Hd. induction LD as [|t l H HL IH]; [reflexivity|]. cbn [map coefficient triple fst snd].
      rewrite H. destruct (Z.eqb_spec (-1) d); [congruence|]. cbn [andb]. rewrite IH. ring. }
    assert (FV : forall d x, length x = n -> match find_t t' d x with
       | Some c => lowest_terms c /\ d = -1 /\ (value c == coef (padd p (terms_poly l)) x)%Q
       | None => d = -1 -> (coef (padd p (terms_poly l)) x == 0)%Q end).
    { intros d x Hx. rewrite F by auto. specialize (HV d x Hx).
      pose proof (gfold_value l LL (find_t t d x) d x) as G. unfold gfold_r in G.
      assert (G0 : match find_t t d x with Some c => lowest_terms c | None => True end) by (destruct (find_t t d x); tauto).
      specialize (G G0). clear G0. assert (CA : (coef (padd p (terms_poly l)) x == coef p x + coefficient (map triple l) (-1) x)%Q) by (unfold padd; rewrite coef_app, terms_poly_coef by auto; reflexivity).
      destruct (gfold rat_add l (find_t t d x) d x) as [c|] eqn:Eg.
      - destruct G as [G1 G2]. split; auto.
        assert (Hd : d = -1).
        { destruct (find_t t d x) as [c0|]; [apply HV|].
          destruct (Z.eq_dec d (-1)); auto. exfalso.
          assert (gfold rat_add l None d x = None); [|congruence]. apply gfold_none. intros tm Hin.
          rewrite Forall_forall in LD. unfold keyb. rewrite (LD tm Hin). destruct (Z.eqb_spec (-1) d); [congruence|reflexivity]. }
        subst d. split; auto. rewrite CA, G2. destruct (find_t t (-1) x) as [c0|]; [destruct HV as (_ & _ & HV); now rewrite HV|now rewrite HV by auto].
      - destruct G as [G1 G2]. intros ->. rewrite G1 in HV. rewrite CA, HV, G2 by auto. ring. }
    split; [exact W|]. split.
    + apply Forall_forall. intros tm Hin. destruct (in_flat_triple n t' tm W Hin) as [H1 H2].
      specialize (FV (t_deg tm) (t_exps tm) H2). rewrite H1 in FV. split; apply FV.
    + intros x. destruct (Nat.eq_dec (length x) n) as [Hx|Hx].
      * rewrite terms_poly_coef.
        2: { apply Forall_forall. intros tm Hin. destruct (in_flat_triple n t' tm W Hin) as [H1 H2].
             specialize (FV (t_deg tm) (t_exps tm) H2). rewrite H1 in FV. apply FV. }
        specialize (FV (-1) x Hx). destruct (find_t t' (-1) x) as [c|] eqn:Ef.
        { destruct FV as (_ & _ & FV). rewrite <- FV. apply coefficient_nodup; [now apply flat_nodup|]. apply flat_find; auto. }
        { rewrite FV by auto. apply coefficient_absent. intros Hin. apply in_map_iff in Hin as ([c1 x1 d1] & H & Hin).
          inversion H; subst. apply (flat_find (length x)) in Hin as [_ Hin]; auto. congruence. }
      * assert (HZ : forall q, (forall a, In a q -> length (snd a) <> length x) -> (coef q x == 0)%Q).
        { clear. induction q as [|a q IH]; intros H; [reflexivity|]. cbn [coef]. rewrite IH by (intros; apply H; now right).
          destruct (same_exps (snd a) x) eqn:E; [|ring]. apply same_exps_spec in E. exfalso. apply (H a); [now left|congruence]. }
        assert (HP : (coef p x == 0)%Q).
        { destruct HT as [(W0 & L0 & P0)|[-> P0]]; [|apply P0]. rewrite <- (P0 x). apply HZ. intros b Hb.
          unfold terms_poly in Hb. apply in_map_iff in Hb as (tm & <- & Hin). cbn.
          pose proof (flat_len n t W0) as FL. unfold all_len in FL. rewrite Forall_forall in FL. rewrite (FL tm Hin). auto. }
        unfold padd. rewrite coef_app, HP. rewrite !HZ; [ring| |].
        { intros b Hb. unfold terms_poly in Hb. apply in_map_iff in Hb as (tm & <- & Hin). cbn.
          unfold all_len in HL. rewrite Forall_forall in HL. rewrite (HL tm Hin). auto. }
        { intros b Hb. unfold terms_poly in Hb. apply in_map_iff in Hb as (tm & <- & Hin). cbn.
          pose proof (flat_len n t' W) as FL. unfold all_len in FL. rewrite Forall_forall in FL. rewrite (FL tm Hin). auto. }
Qed.

(** ** Products *)
Definition prod_terms (l1 l2 : list (bterm rat)) mn mx : list (bterm rat) :=
  flat_map (fun a => flat_map (fun b => match add_in_box (t_exps a) (t_exps b) mn mx with
      | Some x => [mkTerm (rat_mul_fun (t_coef a) (t_coef b)) x (-1)] | None => [] end) l2) l1.
Lemma fold_out_app {A B} (f : B -> A -> outcome B) l1 l2 b : fold_out f (l1 ++ l2) b = bind (fold_out f l1 b) (fold_out f l2).
Proof. revert b; induction l1 as [|a l1 IH]; intros b; cbn; auto. destruct (f b a); cbn; auto. Qed.
Definition ins (t : trie rat) (tm : bterm rat) := insert_term rat_add t (t_coef tm) (t_exps tm) (-1).
Lemma mul_row_fold a l2 mn mx t : mul_row rat_add rat_mul_fun a l2 mn mx t =
  fold_out ins (flat_map (fun b => match add_in_box (t_exps a) (t_exps b) mn mx with
      | Some x => [mkTerm (rat_mul_fun (t_coef a) (t_coef b)) x (-1)] | None => [] end) l2) t.
Proof.
  unfold mul_row. revert t; induction l2 as [|b l2 IH]; intros t; cbn [fold_out flat_map]; auto.
  destruct (add_in_box (t_exps a) (t_exps b) mn mx) as [x|]; cbn [app fold_out bind ins t_coef t_exps]; [|apply IH].
  unfold ins at 1. cbn [t_coef t_exps]. destruct (insert_term _ _ _ _ _); cbn [bind]; auto.
Qed.
Lemma mul_lists_fold l1 l2 mn mx : mul_lists rat_add rat_mul_fun l1 l2 mn mx = fold_out ins (prod_terms l1 l2 mn mx) empty_trie.
Proof.
  unfold mul_lists, prod_terms. generalize (@empty_trie rat). induction l1 as [|a l1 IH]; intros t; cbn [fold_out flat_map]; auto.
  rewrite fold_out_app, mul_row_fold. destruct (fold_out ins _ t); cbn [bind]; auto.
Qed.
Lemma prod_terms_count l1 l2 mn mx : length (prod_terms l1 l2 mn mx) = count_products l1 l2 mn mx.
Proof.
  unfold prod_terms. induction l1 as [|a l1 IH]; cbn [flat_map count_products]; auto. rewrite app_length, IH. f_equal.
  clear. induction l2 as [|b l2 IH]; cbn [flat_map filter]; auto. rewrite app_length, IH.
  destruct (add_in_box _ _ _ _); reflexivity.
Qed.
Lemma add_in_box_spec : forall n a b mn mx, length a = n -> length b = n -> length mn = n -> length mx = n ->
  add_in_box a b mn mx = if in_box mn mx (vadd a b) then Some (vadd a b) else None.
Proof.
  induction n as [|n IH]; intros [|x a] [|y b] [|l mn] [|h mx] H1 H2 H3 H4; try discriminate; auto.
  cbn [add_in_box vadd in_box]. injection H1 as H1. injection H2 as H2. injection H3 as H3. injection H4 as H4.
  rewrite (IH a b mn mx) by auto.
  destruct (Z.ltb_spec (x + y) l), (Z.leb_spec l (x + y)); try lia; cbn [orb andb]; auto.
  destruct (Z.ltb_spec h (x + y)), (Z.leb_spec (x + y) h); try lia; cbn [orb andb]; auto.
  destruct (in_box mn mx (vadd a b)); auto.
Qed.
Lemma vadd_length n a b : length a = n -> length b = n -> length (vadd a b) = n.
Proof. revert a b; induction n; intros [|x a] [|y b] H1 H2; try discriminate; cbn; auto. Qed.

Definition good_term n (tm : bterm rat) := lowest_terms (t_coef tm) /\ length (t_exps tm) = n.
Lemma prod_terms_ok n l1 l2 mn mx : Forall (good_term n) l1 -> Forall (good_term n) l2 -> length mn = n -> length mx = n ->
  all_len n (prod_terms l1 l2 mn mx) /\ Forall (fun tm => lowest tm /\ t_deg tm = -1) (prod_terms l1 l2 mn mx) /\
  peq (terms_poly (prod_terms l1 l2 mn mx)) (truncate mn mx (pmul (terms_poly l1) (terms_poly l2))).
Proof.
  intros H1 H2 Hmn Hmx.
  assert (G : forall tm, In tm (prod_terms l1 l2 mn mx) -> length (t_exps tm) = n /\ lowest tm /\ t_deg tm = -1).
  { intros tm Hin. unfold prod_terms in Hin. apply in_flat_map in Hin as (a & Ha & Hin). apply in_flat_map in Hin as (b & Hb & Hin).
    rewrite Forall_forall in H1, H2. destruct (H1 a Ha) as [A1 A2], (H2 b Hb) as [B1 B2].
    rewrite (add_in_box_spec n) in Hin by auto. destruct (in_box mn mx (vadd (t_exps a) (t_exps b))); [|destruct Hin].
    destruct Hin as [<-|[]]. cbn. split; [now apply vadd_length|]. split; auto. now apply rat_mul_ok. }
  split; [apply Forall_forall; intros; now apply G|]. split; [apply Forall_forall; intros; now apply G|].
  intros x. unfold prod_terms, pmul. induction H1 as [|a l1 [A1 A2] H1 IH]; [reflexivity|].
  assert (IH' := IH ltac:(intros tm Hin; apply G; unfold prod_terms; cbn [flat_map]; apply in_app_iff; right; exact Hin)). clear IH G.
  cbn [flat_map terms_poly map]. unfold terms_poly in *. unfold truncate in *. rewrite filter_app, map_app, !coef_app, IH'.
  apply Qplus_comp; [|reflexivity]. clear IH'. cbn [fst snd].
  induction H2 as [|b l2 [B1 B2] H2 IH]; [reflexivity|].
  cbn [flat_map map filter fst snd]. rewrite (add_in_box_spec n) by auto.
  destruct (in_box mn mx (vadd (t_exps a) (t_exps b))); cbn [app map coef fst snd t_coef t_exps]; rewrite IH; [|reflexivity].
  destruct (rat_mul_ok (t_coef a) (t_coef b) A1 B1) as [_ E]. destruct same_exps; [rewrite E|]; reflexivity.
Qed.

Lemma good_delivered n out : Forall (fun tm => lowest_terms (t_coef tm) /\ ~ (value (t_coef tm) == 0)%Q /\ t_deg tm = -1 /\ length (t_exps tm) = n) out -> Forall (good_term n) out.
Proof. intros H. eapply Forall_impl; [|exact H]. unfold good_term. cbv beta. tauto. Qed.

(** Truncated product of two tries. *)
Lemma mul_lists_poly n l1 l2 mn mx : n <> O -> Forall (good_term n) l1 -> Forall (good_term n) l2 -> length mn = n -> length mx = n ->
  exists t, mul_lists rat_add rat_mul_fun l1 l2 mn mx = Ok t /\
    ((count_products l1 l2 mn mx = O /\ t = empty_trie /\ peq (truncate mn mx (pmul (terms_poly l1) (terms_poly l2))) []) \/
     (count_products l1 l2 mn mx <> O /\ trie_poly n t (truncate mn mx (pmul (terms_poly l1) (terms_poly l2))))).
Proof.
  intros Hn H1 H2 Hmn Hmx. destruct (prod_terms_ok n l1 l2 mn mx H1 H2 Hmn Hmx) as (A & B & C).
  destruct (fold_poly n (prod_terms l1 l2 mn mx) empty_trie [] Hn A B) as (t & E & F).
  { right. split; [reflexivity|]. intros x; reflexivity. }
  exists t. rewrite mul_lists_fold. split; [exact E|]. rewrite <- prod_terms_count.
  destruct (prod_terms l1 l2 mn mx) as [|a l] eqn:Ep.
  - left. destruct F as [[_ ->]|(W & _)]; [|cbn in E; injection E as <-; destruct n; [congruence|destruct W]].
    split; auto. split; auto. intros x. rewrite <- (C x). reflexivity.
  - right. split; [discriminate|]. destruct F as [[F _]|F]; [discriminate|].
    destruct F as (W & L & P). split; auto. split; auto. intros x. rewrite (P x). cbn [padd app]. apply C.
Qed.

(** ** Programs over GeneralMonomialSum *)
Definition grel (n : nat) (m : msum rat) (p : poly) : Prop :=
  ms_vars m = n /\
  ((ms_terms m = O /\ (ms_trie m = None \/ ms_trie m = Some empty_trie) /\ peq p []) \/
   (ms_terms m <> O /\ exists t, ms_trie m = Some t /\ trie_poly n t p)).

Lemma peq_trans p q r : peq p q -> peq q r -> peq p r.
Proof. intros H H0 x. rewrite (H x). apply H0. Qed.
Lemma peq_sym p q : peq p q -> peq q p.
Proof. intros H x. symmetry. apply H. Qed.
Lemma peq_refl p : peq p p.
Proof. intros x; reflexivity. Qed.
Lemma trie_poly_peq n t p q : trie_poly n t p -> peq p q -> trie_poly n t q.
Proof. intros (A & B & C) H. split; auto. split; auto. eapply peq_trans; eauto. Qed.

Lemma grel_terms n m p : grel n m p -> ms_terms m <> O ->
  exists out, sum_terms rat_zero m = Ok out /\ NoDup (map t_exps out) /\
    Forall (fun tm => lowest_terms (t_coef tm) /\ ~ (value (t_coef tm) == 0)%Q /\ t_deg tm = -1 /\ length (t_exps tm) = n) out /\
    peq (terms_poly out) p.
Proof.
  intros (V & [(A & _)|(A & t & B & C)]) H; [congruence|]. unfold sum_terms. rewrite B, V. now apply trie_poly_terms.
Qed.

Lemma pmul_nil_l p q : peq p [] -> peq (pmul p q) [].
Proof. intros H. eapply peq_trans; [apply pmul_peq; [exact H|apply peq_refl]|]. apply peq_refl. Qed.
Lemma pmul_nil_r p q : peq q [] -> peq (pmul p q) [].
Proof.
  intros H. eapply peq_trans; [apply pmul_peq; [apply peq_refl|exact H]|]. intros x. rewrite coef_pmul. cbn [wsum].
  induction p as [|a p IHp]; cbn [wsum coef]; [reflexivity|]. rewrite IHp. cbn [coef]. ring.
Qed.
Lemma truncate_nil mn mx p : peq p [] -> peq (truncate mn mx p) [].
Proof. intros H x. rewrite coef_filter_box. destruct in_box; [apply H|reflexivity]. Qed.

Lemma gms_insert_ok n m p c x : n <> O -> grel n m p -> lowest_terms c -> length x = n ->
  exists m', insert_monomial rat_add rat_zero m c x = Ok m' /\ grel n m' (padd p [(value c, x)]).
Proof.
  intros Hn (V & H) Hc Hx. unfold insert_monomial, insert_form. destruct (rat_zero c) eqn:Ez.
  - exists m. split; auto. split; auto. apply rat_zero_ok in Ez; auto.
    assert (E : peq p (padd p [(value c, x)])).
    { intros y. unfold padd. rewrite coef_app. cbn [coef fst snd]. destruct same_exps; rewrite ?Ez; ring. }
    destruct H as [(A & B & C)|(A & t & B & C)]; [left|right].
    + split; auto. split; auto. eapply peq_trans; [apply peq_sym; exact E|exact C].
    + split; auto. exists t. split; auto. eapply trie_poly_peq; eauto.
  - assert (G : forall t0, (trie_poly n t0 p \/ (t0 = empty_trie /\ peq p [])) ->
       exists m', bind (insert_term rat_add t0 c x (-1)) (fun tr' => Ok (mkSum (S (ms_terms m)) (ms_vars m) (Some tr'))) = Ok m' /\
         grel n m' (padd p [(value c, x)])).
    { intros t0 H0. destruct (fold_poly n [mkTerm c x (-1)] t0 p Hn) as (t' & E & F).
      - constructor; [exact Hx|constructor].
      - constructor; [split; [exact Hc|reflexivity]|constructor].
      - exact H0.
      - cbn [fold_out t_coef t_exps] in E. apply bind_ok in E as (t1 & E1 & E2). injection E2 as ->.
        rewrite E1. cbn [bind]. eexists; split; [reflexivity|]. split; [exact V|]. right. split; [discriminate|].
        exists t'. split; auto. destruct F as [[F _]|F]; [discriminate|exact F]. }
    destruct H as [(A & B & C)|(A & t & B & C)].
    + rewrite A in *. cbn [Nat.eqb]. apply G. right; auto.
    + destruct (Nat.eqb_spec (ms_terms m) 0) as [|_]; [congruence|]. rewrite B. apply G. now left.
Qed.

Lemma gms_add_ok n m g p q : n <> O -> grel n m p -> grel n g q ->
  exists m', gms_add rat_add rat_zero m g = Ok m' /\ grel n m' (padd p q).
Proof.
  intros Hn Hm Hg. unfold gms_add. pose proof Hm as (V & H). pose proof Hg as (V2 & H2).
  rewrite V, V2, Nat.eqb_refl. cbn [negb].
  destruct (Nat.eqb_spec (ms_terms g) 0) as [E0|E0].
  - exists m. split; auto. split; auto. destruct H2 as [(_ & _ & Q0)|(A & _)]; [|congruence].
    assert (E : peq p (padd p q)) by (intros x; unfold padd; rewrite coef_app, (Q0 x); cbn; ring).
    destruct H as [(A & B & C)|(A & t & B & C)]; [left|right].
    + split; auto. split; auto. eapply peq_trans; [apply peq_sym; exact E|exact C].
    + split; auto. exists t. split; auto. eapply trie_poly_peq; eauto.
  - destruct (grel_terms n g q Hg E0) as (out & Eo & _ & G & P).
    assert (HT : exists tr, (match ms_trie m with None => (empty_trie, O) | Some t => (t, ms_terms m) end) = (tr, ms_terms m) /\
        ((ms_terms m <> O /\ trie_poly n tr p) \/ (ms_terms m = O /\ tr = empty_trie /\ peq p []))).
    { destruct H as [(A & [B|B] & C)|(A & t & B & C)]; rewrite B, ?A; eexists; split; try reflexivity; auto. }
    destruct HT as (tr & -> & HT). rewrite Eo. cbn [bind].
    destruct (fold_poly n out tr p Hn) as (t' & E & F).
    { unfold all_len. eapply Forall_impl; [|exact G]. cbv beta. tauto. }
    { eapply Forall_impl; [|exact G]. unfold lowest. cbv beta. tauto. }
    { destruct HT as [[_ HT]|(_ & HT)]; auto. }
    rewrite E. cbn [bind]. eexists; split; [reflexivity|]. split; [reflexivity|]. cbn [ms_terms ms_trie].
    assert (EP : peq (padd p (terms_poly out)) (padd p q)) by (apply padd_peq; [apply peq_refl|exact P]).
    destruct F as [[-> ->]|F].
    + assert (Q0 : peq q []) by (apply peq_sym; exact P).
      assert (EQ : peq p (padd p q)) by (intros x; unfold padd; rewrite coef_app, (Q0 x); cbn; ring).
      cbn [length]. rewrite Nat.add_0_r. destruct HT as [[A C]|(A & -> & C)].
      * right. split; auto. exists tr. split; auto. eapply trie_poly_peq; eauto.
      * left. split; auto. split; auto. eapply peq_trans; [apply peq_sym; exact EQ|exact C].
    + assert (LO : ms_terms m <> O \/ out <> []).
      { destruct HT as [[A _]|(A & -> & _)]; auto. right. intros ->. cbn in E. injection E as <-.
        destruct F as [W _]. destruct n; [congruence|destruct W]. }
      right. split; [|exists t'; split; auto; eapply trie_poly_peq; eauto].
      destruct LO as [LO|LO]; [lia|]. destruct out; [congruence|cbn; lia].
Qed.

Lemma gms_multiply_ok n m g p q mn mx : n <> O -> grel n m p -> grel n g q -> length mn = n -> length mx = n ->
  exists m', gms_multiply rat_add rat_zero rat_mul_fun m g mn mx = Ok m' /\ grel n m' (truncate mn mx (pmul p q)).
Proof.
  intros Hn Hm Hg Hmn Hmx. unfold gms_multiply. pose proof Hm as (V & H). pose proof Hg as (V2 & H2).
  rewrite V, V2, Nat.eqb_refl. cbn [negb].
  destruct (Nat.eqb_spec (ms_terms m) 0) as [E0|E0].
  { exists m. split; auto. split; auto. destruct H as [(A & B & C)|(A & _)]; [|congruence]. left. split; auto. split; auto.
    now apply truncate_nil, pmul_nil_l. }
  destruct (Nat.eqb_spec (ms_terms g) 0) as [E1|E1].
  { eexists; split; [reflexivity|]. split; auto. destruct H2 as [(A & B & C)|(A & _)]; [|congruence]. left. split; auto. split; auto.
    now apply truncate_nil, pmul_nil_r. }
  destruct (grel_terms n m p Hm E0) as (l1 & -> & _ & G1 & P1). cbn [bind].
  assert (HL2 : exists l2, (match l1 with [] => Ok [] | _ => sum_terms rat_zero g end) = Ok l2 /\ Forall (good_term n) l2 /\
      peq (truncate mn mx (pmul (terms_poly l1) (terms_poly l2))) (truncate mn mx (pmul p q))).
  { destruct (grel_terms n g q Hg E1) as (l2 & Eo & _ & G2 & P2). destruct l1 as [|a l1].
    - exists []. split; auto. split; [constructor|]. apply truncate_peq. cbn [terms_poly map pmul flat_map].
      apply peq_sym, pmul_nil_l. apply peq_sym. exact P1.
    - exists l2. split; auto. split; [now apply good_delivered|]. apply truncate_peq, pmul_peq; auto. }
  destruct HL2 as (l2 & -> & G2 & P2). cbn [bind].
  destruct (mul_lists_poly n l1 l2 mn mx Hn (good_delivered n l1 G1) G2 Hmn Hmx) as (t & -> & F). cbn [bind].
  eexists; split; [reflexivity|]. split; [reflexivity|]. cbn [ms_terms ms_trie].
  destruct F as [(A & -> & C)|(A & C)]; [left|right].
  - split; auto. split; auto. eapply peq_trans; [apply peq_sym; exact P2|exact C].
  - split; auto. exists t. split; auto. eapply trie_poly_peq; eauto.
Qed.

Lemma grun_ok n p : n <> O -> Forall (legal n) p -> forall s q, (forall i, grel n (s i) (q i)) ->
  exists s', grun s p = Ok s' /\ forall i, grel n (s' i) (prun q p i).
Proof.
  intros Hn. induction 1 as [|o p Ho HP IH]; intros s q HR.
  - exists s. split; auto.
  - assert (G : exists s1, gstep s o = Ok s1 /\ forall i, grel n (s1 i) (pstep q o i)).
    { assert (Upd : forall i m r, grel n m r -> forall k, grel n (gset s i m k) (pset q i r k)).
      { intros i m r Hm k. unfold gset, pset. destruct (Nat.eqb k i); auto. }
      destruct o as [i c x|i j|i j mn mx]; cbn [gstep pstep legal] in *.
      - destruct Ho as [H1 H2]. destruct (gms_insert_ok n (s i) (q i) c x Hn (HR i) H1 H2) as (m' & -> & Hm). eexists; split; [reflexivity|]. auto.
      - destruct (gms_add_ok n (s i) (s j) _ _ Hn (HR i) (HR j)) as (m' & -> & Hm). eexists; split; [reflexivity|]. auto.
      - destruct Ho as [H1 H2]. destruct (gms_multiply_ok n (s i) (s j) _ _ mn mx Hn (HR i) (HR j) H1 H2) as (m' & -> & Hm). eexists; split; [reflexivity|]. auto. }
    destruct G as (s1 & E & G). destruct (IH s1 _ G) as (s' & E2 & G2). exists s'. cbn [grun prun]. rewrite E. cbn [bind]. auto.
Qed.

Theorem gms_programs n p : n <> O -> Forall (legal n) p ->
  exists s, grun (fun _ => new_sum n) p = Ok s /\
  forall i, (ms_terms (s i) = O -> forall x, (coef (prun (fun _ => []) p i) x == 0)%Q) /\
    (ms_terms (s i) <> O -> exists out, sum_terms rat_zero (s i) = Ok out /\ NoDup (map t_exps out) /\
       Forall (fun tm => lowest_terms (t_coef tm) /\ ~ (value (t_coef tm) == 0)%Q) out /\
       forall x, (coef (terms_poly out) x == coef (prun (fun _ => []) p i) x)%Q).
Proof.
  intros Hn HP. destruct (grun_ok n p Hn HP (fun _ => new_sum n) (fun _ => [])) as (s & E & G).
  { intros i. split; [reflexivity|]. left. split; [reflexivity|]. split; [now left|]. apply peq_refl. }
  exists s. split; [exact E|]. intros i. specialize (G i). split.
  - intros H0. destruct G as (_ & [(_ & _ & G)|(G & _)]); [exact G|congruence].
  - intros H0. destruct (grel_terms n _ _ G H0) as (out & A & B & C & D). exists out. split; auto. split; auto. split; [|exact D].
    eapply Forall_impl; [|exact C]. cbv beta. tauto.
Qed.

(** multiply.h on tries built by insertions *)
Definition input_poly (l : list (rat * list Z)) : poly := map (fun p => (value (fst p), snd p)) l.
Definition as_input (l : list (rat * list Z)) : list (rat * Z * list Z) := map (fun p => (fst p, -1, snd p)) l.
Lemma inserted_poly n l : n <> O -> Forall (fun p => lowest_terms (fst p) /\ length (snd p) = n) l ->
  forall m p, grel n m p ->
  exists m', insert_all rat_add rat_zero (as_input l) m = Ok m' /\ grel n m' (padd p (input_poly l)).
Proof.
  intros Hn. induction 1 as [|[c x] l [H1 H2] HL IH]; intros m p HM.
  - exists m. split; [reflexivity|]. unfold padd. cbn [input_poly map]. now rewrite app_nil_r.
  - cbn [fst snd] in *. destruct (gms_insert_ok n m p c x Hn HM H1 H2) as (m1 & E & G1).
    destruct (IH m1 _ G1) as (m' & E2 & G2). exists m'. split.
    + cbn [as_input map insert_all fold_out fst snd]. unfold insert_monomial in E. rewrite E. exact E2.
    + unfold padd in *. rewrite <- app_assoc in G2. exact G2.
Qed.

Theorem trie_multiply_exact n l1 l2 mn mx m1 m2 t1 t2 : n <> O -> length mn = n -> length mx = n ->
  Forall (fun p => lowest_terms (fst p) /\ length (snd p) = n) l1 ->
  Forall (fun p => lowest_terms (fst p) /\ length (snd p) = n) l2 ->
  insert_all rat_add rat_zero (as_input l1) (new_sum n) = Ok m1 -> ms_trie m1 = Some t1 ->
  insert_all rat_add rat_zero (as_input l2) (new_sum n) = Ok m2 -> ms_trie m2 = Some t2 ->
  exists t, trie_multiply rat_add rat_zero rat_mul_fun t1 t2 n mn mx = Ok t /\
    ((t = empty_trie /\ forall x, (coef (truncate mn mx (pmul (input_poly l1) (input_poly l2))) x == 0)%Q) \/
     exists out, iterate rat_zero t n = Ok out /\ NoDup (map t_exps out) /\
       Forall (fun tm => lowest_terms (t_coef tm) /\ ~ (value (t_coef tm) == 0)%Q) out /\
       forall x, (coef (terms_poly out) x == coef (truncate mn mx (pmul (input_poly l1) (input_poly l2))) x)%Q).
Proof.
  intros Hn Hmn Hmx L1 L2 E1 T1 E2 T2.
  assert (G0 : grel n (new_sum n) []).
  { split; [reflexivity|]. left. split; [reflexivity|]. split; [now left|]. apply peq_refl. }
  assert (HP : forall l m t, Forall (fun p => lowest_terms (fst p) /\ length (snd p) = n) l ->
     insert_all rat_add rat_zero (as_input l) (new_sum n) = Ok m -> ms_trie m = Some t -> trie_poly n t (input_poly l)).
  { intros l m t HL E ET. destruct (inserted_poly n l Hn HL _ _ G0) as (m' & E' & G'). rewrite E in E'. injection E' as <-.
    destruct G' as (V & [(A & B & C)|(A & t' & B & C)]).
    - exfalso. (* termCount 0: no insertion happened, the pointer is still NULL *)
      assert (K : forall l m0, insert_all rat_add rat_zero (as_input l) m0 = Ok m -> (m = m0 \/ (ms_terms m > ms_terms m0)%nat)).
      { clear. induction l as [|[c x] l IH]; intros m0 E.
        - cbn in E. injection E as <-. now left.
        - cbn [as_input map insert_all fold_out fst snd] in E. apply bind_ok in E as (m1 & E1 & E2).
          apply IH in E2. unfold insert_form in E1. destruct (rat_zero c); [injection E1 as <-; exact E2|].
          destruct (if (ms_terms m0 =? 0)%nat then Some empty_trie else ms_trie m0); [|discriminate].
          apply bind_ok in E1 as (t' & _ & E1). injection E1 as <-. cbn [ms_terms] in E2. right.
          destruct E2 as [->|E2]; cbn [ms_terms] in *; lia. }
      destruct (K l (new_sum n) E) as [->|K']; [discriminate|rewrite A in K'; lia].
    - cbn [padd app] in C. congruence. }
  pose proof (HP l1 m1 t1 L1 E1 T1) as P1. pose proof (HP l2 m2 t2 L2 E2 T2) as P2.
  destruct (trie_poly_terms n t1 _ P1) as (o1 & I1 & _ & G1 & Q1). destruct (trie_poly_terms n t2 _ P2) as (o2 & I2 & _ & G2 & Q2).
  unfold trie_multiply. rewrite I1, I2. cbn [bind].
  assert (EQ : peq (truncate mn mx (pmul (terms_poly o1) (terms_poly o2))) (truncate mn mx (pmul (input_poly l1) (input_poly l2)))).
  { apply truncate_peq, pmul_peq; auto. }
  destruct o1 as [|a o1].
  - exists empty_trie. split; auto. left. split; auto. intros x. rewrite <- (EQ x). reflexivity.
  - destruct (mul_lists_poly n (a :: o1) o2 mn mx Hn (good_delivered n _ G1) (good_delivered n _ G2) Hmn Hmx) as (t & E & F).
    exists t. split; [exact E|]. destruct F as [(_ & -> & C)|(_ & C)].
    + left. split; auto. intros x. rewrite <- (EQ x). apply C.
    + right. destruct (trie_poly_terms n t _ C) as (out & A & B & D & P). exists out. split; auto. split; auto. split.
      * eapply Forall_impl; [|exact D]. cbv beta. tauto.
      * intros x. rewrite (P x). apply EQ.
Qed.
