(** Enumerating the levels of a cone. *)
From Coq Require Import Permutation.
From Verif Require Import Common DigHeap DigHeapProofs Dig.
Open Scope Z_scope.

(** ** Vectors *)
Definition nonneg (v : list Z) : Prop := forall i, 0 <= nth i v 0.
Definition wv (d : nat) (v : list Z) : Prop := length v = d /\ nonneg v.
Lemma add_at_len v i k : length (add_at v i k) = length v.
Proof. apply length_upd. Qed.
Lemma add_at_nth v i k j : (i < length v)%nat -> nth j (add_at v i k) 0 = nth j v 0 + (if Nat.eqb i j then k else 0).
Proof. intros H. unfold add_at. destruct (Nat.eqb_spec i j) as [<-|N]; [rewrite nth_upd_eq by exact H; lia|rewrite nth_upd_neq by exact N; lia]. Qed.
Lemma vec_ext d u v : length u = d -> length v = d -> (forall i, (i < d)%nat -> nth i u 0 = nth i v 0) -> u = v.
Proof. intros Hu Hv H. apply (nth_ext _ _ 0 0); [lia|]. intros i Hi. apply H. lia. Qed.
Lemma idot_add ss : forall v i k, length v = length ss -> (i < length v)%nat -> idot ss (add_at v i k) = idot ss v + k * nth i ss 0.
Proof.
  induction ss as [|s ss IH]; intros [|x v] i k L H; cbn [length] in *; try lia. destruct i as [|i]; cbn [add_at upd nth idot]; [lia|].
  unfold add_at in IH. rewrite IH by lia. lia.
Qed.
Lemma idot_zero ss v : (forall i, (i < length v)%nat -> nth i v 0 = 0) -> idot ss v = 0.
Proof.
  revert ss. induction v as [|x v IH]; intros [|s ss] H; cbn [idot]; try reflexivity. pose proof (H 0%nat ltac:(cbn; lia)) as E. cbn [nth] in E. rewrite E, IH; [lia|]. intros i Hi. apply (H (S i)). cbn [length]. lia.
Qed.
Lemma fnz_some v i : first_nonzero v = Some i <-> (i < length v)%nat /\ nth i v 0 <> 0 /\ forall j, (j < i)%nat -> nth j v 0 = 0.
Proof.
  revert i. induction v as [|x v IH]; intros i; cbn [first_nonzero length].
  - split; [discriminate|intros (H&_); lia].
  - destruct (Z.eqb_spec x 0) as [->|N].
    + destruct i as [|i].
      * split; [destruct (first_nonzero v); discriminate|intros (_&H&_); cbn in H; lia].
      * split.
        -- intros H. destruct (first_nonzero v) as [j|] eqn:E; [|discriminate H]. cbn [option_map] in H. injection H as ->. destruct (proj1 (IH i) eq_refl) as (H1&H2&H3). split; [lia|split; [exact H2|]]. intros [|j] Hj; [reflexivity|]. cbn [nth]. apply H3. lia.
        -- intros (H1&H2&H3). rewrite (proj2 (IH i)); [reflexivity|]. split; [lia|split; [exact H2|]]. intros j Hj. apply (H3 (S j)). lia.
    + split.
      * intros [= <-]. split; [lia|split; [exact N|intros j Hj; lia]].
      * intros (H1&H2&H3). destruct i as [|i]; [reflexivity|]. exfalso. apply N. apply (H3 0%nat). lia.
Qed.
Lemma fnz_none v : first_nonzero v = None <-> forall i, (i < length v)%nat -> nth i v 0 = 0.
Proof.
  induction v as [|x v IH]; cbn [first_nonzero length].
  - split; [intros _ i H; lia|reflexivity].
  - destruct (Z.eqb_spec x 0) as [->|N].
    + destruct (first_nonzero v); cbn [option_map].
      * split; [discriminate|]. intros H. assert (Some n = None) by (apply IH; intros i Hi; apply (H (S i)); lia). discriminate.
      * split; [|reflexivity]. intros _ [|i] Hi; [reflexivity|]. apply IH; [reflexivity|lia].
    + split; [discriminate|]. intros H. exfalso. apply N. apply (H 0%nat). lia.
Qed.

(** ** The sorted values *)
Definition sd (d : nat) (ss : list Z) : Prop :=
  length ss = d /\ (1 <= d)%nat /\ (forall i, (i < d)%nat -> nth i ss 0 < 0) /\ forall i, (S i < d)%nat -> nth (S i) ss 0 <= nth i ss 0.
Definition zero (v : list Z) : Prop := first_nonzero v = None.
Lemma zero_idot ss v : zero v -> idot ss v = 0.
Proof. intros H. apply idot_zero, fnz_none, H. Qed.
Lemma idot_neg ss : forall v, length v = length ss -> (forall i, (i < length ss)%nat -> nth i ss 0 < 0) -> nonneg v -> idot ss v <= 0 /\ (idot ss v = 0 -> zero v) /\ forall i, (i < length v)%nat -> nth i v 0 <= - idot ss v.
Proof.
  induction ss as [|s ss IH]; intros [|x v] L Hs Hv; cbn [length] in *; try lia.
  - split; [cbn; lia|]. split; [intros _; reflexivity|intros i Hi; lia].
  - destruct (IH v ltac:(lia)) as (I1&I2&I3); [intros i Hi; apply (Hs (S i)); lia|intros i; apply (Hv (S i))|]. pose proof (Hs 0%nat ltac:(lia)) as S0. pose proof (Hv 0%nat) as V0. cbn [nth] in S0, V0. cbn [idot].
    assert (s * x <= - x) by nia. split; [lia|]. split.
    + intros E. unfold zero. cbn [first_nonzero]. assert (x = 0) by lia. subst x. rewrite Z.eqb_refl. rewrite I2 by lia. reflexivity.
    + intros [|i] Hi; cbn [nth]; [lia|]. specialize (I3 i ltac:(lia)). lia.
Qed.
Lemma sd_neg d ss v : sd d ss -> wv d v -> idot ss v <= 0 /\ (idot ss v = 0 -> zero v) /\ forall i, (i < d)%nat -> nth i v 0 <= - idot ss v.
Proof. intros (L&_&N&_) (Lv&Nv). destruct (idot_neg ss v ltac:(lia)) as (A&B&C); [intros i Hi; apply N; lia|exact Nv|]. split; [exact A|split; [exact B|]]. intros i Hi. apply C. lia. Qed.

(** ** Predecessors *)
Definition pred_vec (v : list Z) : list Z :=
  match first_nonzero v with None => v | Some O => add_at v 0 (-1) | Some (S i) => add_at (add_at v (S i) (-1)) i 1 end.
Definition rank (d : nat) (v : list Z) : Z := idot (map Z.of_nat (seq 1 d)) v.
Lemma rank_nth d i : (i < d)%nat -> nth i (map Z.of_nat (seq 1 d)) 0 = Z.of_nat (S i).
Proof. intros H. rewrite (nth_indep _ 0 (Z.of_nat 0)) by (rewrite map_length, seq_length; exact H). rewrite map_nth, seq_nth by exact H. reflexivity. Qed.
Lemma rank_len d : length (map Z.of_nat (seq 1 d)) = d.
Proof. rewrite map_length, seq_length. reflexivity. Qed.
Lemma rank_add d v i k : length v = d -> (i < d)%nat -> rank d (add_at v i k) = rank d v + k * Z.of_nat (S i).
Proof. intros L H. unfold rank. rewrite idot_add by (rewrite ?rank_len; lia). rewrite rank_nth by exact H. reflexivity. Qed.
Lemma idot_nonneg ss : forall v, (forall i, 0 <= nth i ss 0) -> nonneg v -> 0 <= idot ss v.
Proof.
  induction ss as [|s ss IH]; intros [|x v] Hs Hv; cbn [idot]; try lia. pose proof (Hs 0%nat). pose proof (Hv 0%nat). cbn [nth] in *. specialize (IH v (fun i => Hs (S i)) (fun i => Hv (S i))). nia.
Qed.
Lemma rank_nonneg d v : nonneg v -> 0 <= rank d v.
Proof. intros H. apply idot_nonneg; [|exact H]. intros i. destruct (Nat.lt_ge_cases i d) as [L|G]; [rewrite rank_nth by exact L; lia|]. rewrite nth_overflow by (rewrite rank_len; exact G). lia. Qed.
Lemma wv_add d v i k : wv d v -> (i < d)%nat -> 0 <= nth i v 0 + k -> wv d (add_at v i k).
Proof. intros (L&N) H K. split; [now rewrite add_at_len|]. intros j. rewrite add_at_nth by lia. destruct (Nat.eqb_spec i j) as [<-|]; [exact K|specialize (N j); lia]. Qed.
Lemma pred_ok d ss w : sd d ss -> wv d w -> ~ zero w -> wv d (pred_vec w) /\ idot ss w <= idot ss (pred_vec w) /\ rank d (pred_vec w) = rank d w - 1.
Proof.
  intros (L&D&Ng&So) W Nz. pose proof W as (Lw&Nw). unfold pred_vec. destruct (first_nonzero w) as [[|i]|] eqn:E; [| |contradiction]; apply fnz_some in E; destruct E as (E1&E2&E3).
  - pose proof (Nw 0%nat). split; [apply wv_add; [exact W|lia|lia]|]. rewrite idot_add by lia. rewrite rank_add by lia. specialize (Ng 0%nat ltac:(lia)). lia.
  - pose proof (Nw (S i)). assert (W1 : wv d (add_at w (S i) (-1))) by (apply wv_add; [exact W|lia|lia]). split.
    + apply wv_add; [exact W1|lia|]. pose proof (proj2 W1 i). lia.
    + rewrite !idot_add by (rewrite ?add_at_len; lia). rewrite !rank_add by (rewrite ?add_at_len; lia). specialize (So i ltac:(lia)). lia.
Qed.
Lemma unit_nth d i : (1 <= d)%nat -> nth i (unit_vec d 0) 0 = if Nat.eqb i 0 then 1 else 0.
Proof. intros H. destruct d as [|d]; [lia|]. cbn [unit_vec]. destruct i as [|i]; [reflexivity|]. cbn [nth Nat.eqb]. apply nth_repeat. Qed.
Lemma unit_len d : length (unit_vec d 0) = d.
Proof. destruct d as [|d]; [reflexivity|]. cbn [unit_vec length]. now rewrite repeat_length. Qed.
Lemma pred_zero d w : (1 <= d)%nat -> wv d w -> ~ zero w -> zero (pred_vec w) -> w = unit_vec d 0.
Proof.
  intros D (Lw&Nw) Nz Z0. pose proof (proj1 (fnz_none _) Z0) as Z1. clear Z0. unfold pred_vec in Z1. destruct (first_nonzero w) as [[|i]|] eqn:E; [| |contradiction]; apply fnz_some in E; destruct E as (E1&E2&E3).
  - apply (vec_ext d); [exact Lw|apply unit_len|]. intros j Hj. rewrite unit_nth by exact D. specialize (Z1 j ltac:(rewrite add_at_len; lia)). rewrite add_at_nth in Z1 by lia. destruct j; cbn [Nat.eqb] in *; lia.
  - exfalso. specialize (Z1 i ltac:(rewrite !add_at_len; lia)). rewrite add_at_nth in Z1 by (rewrite add_at_len; lia). rewrite Nat.eqb_refl, add_at_nth in Z1 by lia. rewrite (E3 i) in Z1 by lia. rewrite (proj2 (Nat.eqb_neq (S i) i)) in Z1 by lia. lia.
Qed.

(** ** Successors *)
Lemma succ_sound d ss v l : sd d ss -> wv d v -> successors ss (idot ss v) v = Ok l ->
  Forall (fun a => wv d (fst a) /\ ~ zero (fst a) /\ snd a = idot ss (fst a) /\ snd a <= idot ss v) l /\ (length l <= 2)%nat.
Proof.
  intros Sd W E. pose proof Sd as (L&D&Ng&So). pose proof W as (Lv&Nv). unfold successors in E. destruct (first_nonzero v) as [i|] eqn:F; [|discriminate E]. apply fnz_some in F. destruct F as (F1&F2&F3).
  pose proof (Nv i). pose proof (Nv 0%nat) as V0. pose proof (Ng 0%nat ltac:(lia)) as S0.
  assert (A : wv d (add_at v 0 1) /\ ~ zero (add_at v 0 1) /\ idot ss v + nth 0 ss 0 = idot ss (add_at v 0 1) /\ idot ss v + nth 0 ss 0 <= idot ss v).
  { split; [apply wv_add; [exact W|lia|lia]|]. split; [|rewrite idot_add by lia; split; [ring|lia]]. intros Z0. pose proof (proj1 (fnz_none _) Z0 0%nat ltac:(rewrite add_at_len; lia)) as Z1. rewrite add_at_nth in Z1 by lia. cbn [Nat.eqb] in Z1. lia. }
  destruct (Nat.eqb_spec i (length ss - 1)) as [Ei|Ni].
  - injection E as <-. split; [constructor; [exact A|constructor]|cbn; lia].
  - injection E as <-. split; [|cbn; lia]. constructor; [exact A|]. constructor; [|constructor]. cbn [fst snd]. assert (Hi : (S i < d)%nat) by lia.
    assert (W1 : wv d (add_at v i (-1))) by (apply wv_add; [exact W|lia|lia]). pose proof (proj2 W1 (S i)) as P1. split; [apply wv_add; [exact W1|lia|lia]|]. split.
    + intros Z0. pose proof (proj1 (fnz_none _) Z0 (S i) ltac:(rewrite !add_at_len; lia)) as Z1. rewrite add_at_nth in Z1 by (rewrite add_at_len; lia). rewrite Nat.eqb_refl in Z1. lia.
    + rewrite !idot_add by (rewrite ?add_at_len; lia). specialize (So i Hi). split; [ring|lia].
Qed.
Lemma succ_total d ss e v : sd d ss -> ~ zero v -> exists l, successors ss e v = Ok l.
Proof. intros Sd Nz. unfold successors. destruct (first_nonzero v) as [i|] eqn:F; [|contradiction]. destruct (Nat.eqb i (length ss - 1)); eexists; reflexivity. Qed.
Lemma succ_pred d ss w l : sd d ss -> wv d w -> ~ zero w -> ~ zero (pred_vec w) -> successors ss (idot ss (pred_vec w)) (pred_vec w) = Ok l -> In (w, idot ss w) l.
Proof.
  intros Sd W Nz Np E. pose proof Sd as (L&D&Ng&So). pose proof W as (Lw&Nw). destruct (pred_ok d ss w Sd W Nz) as ((Lp&_)&_). unfold successors in E.
  destruct (first_nonzero w) as [[|i]|] eqn:F; [| |contradiction].
  - assert (Ep : pred_vec w = add_at w 0 (-1)) by (unfold pred_vec; rewrite F; reflexivity). assert (Ew : add_at (pred_vec w) 0 1 = w).
    { apply (vec_ext d); [now rewrite add_at_len|exact Lw|]. intros j Hj. rewrite add_at_nth by lia. rewrite Ep, add_at_nth by lia. destruct (Nat.eqb 0 j); lia. }
    assert (Es : idot ss (pred_vec w) + nth 0 ss 0 = idot ss w) by (rewrite <- Ew at 2; rewrite idot_add by lia; ring).
    destruct (first_nonzero (pred_vec w)) as [i|]; [|discriminate E]. rewrite Ew, Es in E. destruct (Nat.eqb i (length ss - 1)); injection E as <-; left; reflexivity.
  - pose proof (proj1 (fnz_some _ _) F) as (F1&F2&F3). assert (Ep : pred_vec w = add_at (add_at w (S i) (-1)) i 1) by (unfold pred_vec; rewrite F; reflexivity).
    assert (Ef : first_nonzero (pred_vec w) = Some i).
    { apply fnz_some. split; [lia|]. rewrite Ep. split.
      - rewrite add_at_nth by (rewrite add_at_len; lia). rewrite Nat.eqb_refl, add_at_nth by lia. rewrite (F3 i) by lia. rewrite (proj2 (Nat.eqb_neq (S i) i)) by lia. lia.
      - intros j Hj. rewrite add_at_nth by (rewrite add_at_len; lia). rewrite add_at_nth by lia. rewrite (F3 j) by lia. rewrite (proj2 (Nat.eqb_neq (S i) j)), (proj2 (Nat.eqb_neq i j)) by lia. lia. }
    rewrite Ef in E. rewrite (proj2 (Nat.eqb_neq i (length ss - 1))) in E by lia. injection E as <-. right. left. f_equal.
    + apply (vec_ext d); [now rewrite !add_at_len|exact Lw|]. intros j Hj. rewrite !add_at_nth by (rewrite ?add_at_len; lia). rewrite Ep, !add_at_nth by (rewrite ?add_at_len; lia). destruct (Nat.eqb i j), (Nat.eqb (S i) j); lia.
    + rewrite Ep, !idot_add by (rewrite ?add_at_len; lia). ring.
Qed.

(** ** The heap between levels *)
Notation hv := (hvalues (A := ventry)).
Notation okh := (valid (@snd (list Z) Z)).
Definition good (d : nat) (ss : list Z) (a : ventry) : Prop := wv d (fst a) /\ ~ zero (fst a) /\ snd a = idot ss (fst a).
Definition rest (d : nat) (ss : list Z) (e : Z) (h : heap ventry) : Prop :=
  okh h /\ Forall (fun a => good d ss a /\ snd a < e) (hv h) /\
  forall w, wv d w -> ~ zero w -> idot ss w < e -> e <= idot ss (pred_vec w) -> In (w, idot ss w) (hv h).
Lemma rest_covers d ss e h : sd d ss -> e <= 0 -> rest d ss e h -> forall w, wv d w -> ~ zero w -> idot ss w < e -> exists a, In a (hv h) /\ idot ss w <= snd a.
Proof.
  intros Sd He (V&F&C) w. remember (Z.to_nat (rank d w)) as m eqn:Em. revert w Em. induction m as [m IH] using (well_founded_induction lt_wf). intros w -> W Nz Hw.
  destruct (pred_ok d ss w Sd W Nz) as (Wp&Ip&Rp). destruct (Z_lt_le_dec (idot ss (pred_vec w)) e) as [Lt|Ge].
  - assert (Np : ~ zero (pred_vec w)) by (intros Z0; rewrite (zero_idot ss _ Z0) in Lt; lia). pose proof (rank_nonneg d (pred_vec w) (proj2 Wp)). destruct (IH (Z.to_nat (rank d (pred_vec w)))) with (w := pred_vec w) as (a&Ia&Ha); [lia|reflexivity|exact Wp|exact Np|exact Lt|]. exists a. split; [exact Ia|lia].
  - exists (w, idot ss w). split; [apply C; assumption|cbn; lia].
Qed.

(** ** One level *)
Definition inv (d : nat) (ss : list Z) (e : Z) (P : list (list Z)) (h : heap ventry) : Prop :=
  okh h /\ NoDup P /\ Forall (fun v => wv d v /\ idot ss v = e) P /\ Forall (fun a => good d ss a /\ snd a <= e) (hv h) /\
  forall w, wv d w -> ~ zero w -> (idot ss w < e \/ (idot ss w = e /\ ~ In w P)) -> (e < idot ss (pred_vec w) \/ In (pred_vec w) P) -> In (w, idot ss w) (hv h).
Lemma add_entries_all l h : add_entries l h = add_all (@snd (list Z) Z) l h.
Proof. revert h. induction l as [|x l IH]; intros h; [reflexivity|]. cbn [add_entries add_all]. destruct (add_heap snd x h); [apply IH|reflexivity]. Qed.
Lemma exists_vec v P : existsb (vec_eqb v) P = true <-> In v P.
Proof.
  rewrite existsb_exists. unfold vec_eqb. split.
  - intros (x&I1&E). destruct (list_eq_dec Z.eq_dec v x); [subst; exact I1|discriminate E].
  - intros H. exists v. split; [exact H|]. destruct (list_eq_dec Z.eq_dec v v); [reflexivity|congruence].
Qed.
(** Pushing the successors of a new vector of the level keeps the frontier. *)
Lemma inv_push d ss e P h v : sd d ss -> e < 0 -> inv d ss e P h -> wv d v -> ~ zero v -> idot ss v = e -> ~ In v P ->
  forall h1, okh h1 -> Permutation (hv h) ((v, e) :: hv h1) ->
  exists l h2, successors ss e v = Ok l /\ add_entries l h1 = Ok h2 /\ inv d ss e (v :: P) h2 /\ (length (hv h2) <= length (hv h) + 1)%nat.
Proof.
  intros Sd He (V&ND&FP&FH&C) W Nz Ev Nv h1 V1 Pm. destruct (succ_total d ss e v Sd Nz) as (l&El). destruct (add_all_ok snd l h1 V1) as (h2&E2&V2&P2). exists l, h2. split; [exact El|]. split; [now rewrite add_entries_all|].
  pose proof El as El'. rewrite <- Ev in El'. destruct (succ_sound d ss v l Sd W El') as (Fl&Ll). pose proof (Permutation_length P2) as K2. pose proof (Permutation_length Pm) as Km. rewrite app_length in K2. cbn [length] in Km. split; [|lia].
  split; [exact V2|]. split; [constructor; assumption|]. split; [constructor; [split; [exact W|exact Ev]|exact FP]|]. split.
  - apply (Permutation_Forall (Permutation_sym P2)). apply Forall_app. split.
    + revert Fl. apply Forall_impl. intros a (A1&A2&A3&A4). split; [split; [exact A1|split; [exact A2|exact A3]]|lia].
    + apply (Permutation_Forall Pm) in FH. exact (Forall_inv_tail FH).
  - intros w Ww Nw Hu Hp. apply (Permutation_in _ (Permutation_sym P2)). apply in_app_iff.
    assert (Hn : w <> v) by (intros ->; destruct Hu as [Hu|(_&Hu)]; [lia|apply Hu; left; reflexivity]).
    destruct Hp as [Hp|[Hp|Hp]]; [right|left|right].
    + assert (I0 : In (w, idot ss w) (hv h)) by (apply C; [exact Ww|exact Nw|destruct Hu as [Hu|(Hu&Hu')]; [left; exact Hu|right; split; [exact Hu|intros I0; apply Hu'; right; exact I0]]|left; exact Hp]).
      apply (Permutation_in _ Pm) in I0. destruct I0 as [E|I0]; [congruence|exact I0].
    + apply (succ_pred d ss w l Sd Ww Nw); rewrite <- Hp; [exact Nz|exact El'].
    + assert (I0 : In (w, idot ss w) (hv h)) by (apply C; [exact Ww|exact Nw|destruct Hu as [Hu|(Hu&Hu')]; [left; exact Hu|right; split; [exact Hu|intros I0; apply Hu'; right; exact I0]]|right; exact Hp]).
      apply (Permutation_in _ Pm) in I0. destruct I0 as [E|I0]; [congruence|exact I0].
Qed.
Lemma inv_dup d ss e P h v h1 : inv d ss e P h -> In v P -> okh h1 -> Permutation (hv h) ((v, e) :: hv h1) -> inv d ss e P h1.
Proof.
  intros (V&ND&FP&FH&C) Iv V1 Pm. split; [exact V1|]. split; [exact ND|]. split; [exact FP|]. split; [apply (Permutation_Forall Pm) in FH; exact (Forall_inv_tail FH)|].
  intros w Ww Nw Hu Hp. specialize (C w Ww Nw Hu Hp). apply (Permutation_in _ Pm) in C. destruct C as [E|C]; [|exact C]. exfalso. injection E as <- E. destruct Hu as [Hu|(_&Hu)]; [lia|contradiction].
Qed.
Definition level_ok (d : nat) (ss : list Z) (e : Z) (P : list (list Z)) : Prop := NoDup P /\ forall v, In v P <-> wv d v /\ idot ss v = e.
Lemma root_max (h : heap ventry) x y : okh h -> root (h_root h) = Some x -> In y (hv h) -> snd y <= snd x.
Proof. intros V R I0. destruct (pop_ok snd h V) as [(E&_)|(x'&h'&_&_&_&M&R')]; [rewrite E in I0; destruct I0|]. rewrite R in R'. injection R' as <-. apply M, I0. Qed.
Lemma inv_exit d ss e P h : sd d ss -> e < 0 -> inv d ss e P h -> check_top snd e h = false -> level_ok d ss e P /\ rest d ss e h.
Proof.
  intros Sd He (V&ND&FP&FH&C) Ht.
  assert (Hlt : forall a, In a (hv h) -> snd a < e).
  { intros a Ia. rewrite Forall_forall in FH. destruct (FH a Ia) as (_&La). destruct (Z.eq_dec (snd a) e) as [E|]; [|lia]. exfalso. destruct (root (h_root h)) as [x|] eqn:R.
    - pose proof (root_max h x a V R Ia) as M. pose proof (root_in _ _ R) as Ix. destruct (FH x Ix) as (_&Lx). assert (check_top snd e h = true) by (apply check_top_ok; exists x; split; [exact R|lia]). congruence.
    - unfold hvalues in Ia. destruct (h_root h); [destruct Ia|discriminate R]. }
  assert (Full : forall w, wv d w -> idot ss w = e -> In w P).
  { intros w. remember (Z.to_nat (rank d w)) as m eqn:Em. revert w Em. induction m as [m IH] using (well_founded_induction lt_wf). intros w -> W Ew.
    assert (Nz : ~ zero w) by (intros Z0; rewrite (zero_idot ss _ Z0) in Ew; lia). destruct (in_dec (list_eq_dec Z.eq_dec) w P) as [I0|N0]; [exact I0|]. exfalso. destruct (pred_ok d ss w Sd W Nz) as (Wp&Ip&Rp). pose proof (rank_nonneg d (pred_vec w) (proj2 Wp)).
    assert (Hp : e < idot ss (pred_vec w) \/ In (pred_vec w) P).
    { destruct (Z_lt_le_dec e (idot ss (pred_vec w))); [left; assumption|right]. apply (IH (Z.to_nat (rank d (pred_vec w)))); [lia|reflexivity|exact Wp|lia]. }
    specialize (C w W Nz (or_intror (conj Ew N0)) Hp). specialize (Hlt _ C). cbn [snd] in Hlt. lia. }
  split.
  - split; [exact ND|]. intros v. split; [intros Iv; rewrite Forall_forall in FP; apply FP, Iv|intros (W&E); apply Full; assumption].
  - split; [exact V|]. split.
    + apply Forall_forall. intros a Ia. split; [|apply Hlt, Ia]. rewrite Forall_forall in FH. apply FH, Ia.
    + intros w W Nz Hw Hp. apply C; [exact W|exact Nz|left; exact Hw|]. destruct (Z.eq_dec (idot ss (pred_vec w)) e) as [E|N]; [right; apply Full; [apply (pred_ok d ss w Sd W Nz)|exact E]|left; lia].
Qed.
Definition signed_len (coef0 : Z) (P : list (list Z)) : Z := if coef0 <? 0 then - Z.of_nat (length P) else Z.of_nat (length P).
Lemma level_loop_ok d ss e s : sd d ss -> e < 0 -> (s = 1 \/ s = -1) -> forall fuel P coef h P' coef' h',
  inv d ss e P h -> P <> [] -> coef = s * Z.of_nat (length P) -> level_loop fuel ss e P coef h = Ok (P', coef', h') ->
  level_ok d ss e P' /\ rest d ss e h' /\ coef' = s * Z.of_nat (length P').
Proof.
  intros Sd He Hs. induction fuel as [|f IH]; intros P coef h P' coef' h' Iv Np Ec E; [discriminate E|]. cbn [level_loop] in E. destruct (check_top snd e h) eqn:Ht.
  - apply check_top_ok in Ht. destruct Ht as (x&Rx&Kx). pose proof Iv as (V&_&_&FH&_). destruct (pop_ok snd h V) as [(En&_)|(x'&h1&Ep&V1&Pm&_&R')]; [unfold hvalues in En; destruct (h_root h); [discriminate Rx|discriminate En]|].
    rewrite Rx in R'. injection R' as <-. rewrite Ep in E. cbn [bind] in E. destruct x as [v k]. cbn [snd] in Kx. subst k.
    assert (G : good d ss (v, e)) by (rewrite Forall_forall in FH; apply FH, (Permutation_in _ (Permutation_sym Pm)); left; reflexivity). destruct G as (W&Nz&Ev). cbn [fst snd] in W, Nz, Ev.
    destruct (existsb (vec_eqb v) P) eqn:Ex.
    + apply exists_vec in Ex. apply (IH P coef h1); [apply (inv_dup d ss e P h v h1); assumption|exact Np|exact Ec|exact E].
    + assert (Nv : ~ In v P) by (intros I0; apply exists_vec in I0; congruence). destruct (inv_push d ss e P h v Sd He Iv W Nz (eq_sym Ev) Nv h1 V1 Pm) as (l&h2&El&Ea&Iv2&_). rewrite El in E. cbn [bind] in E. rewrite Ea in E. cbn [bind] in E.
      apply IH in E; [exact E|exact Iv2|discriminate|]. cbn [length]. destruct P as [|p P]; [congruence|]. cbn [length] in *. destruct (Z.ltb_spec 0 coef); destruct Hs as [-> | ->]; lia.
  - injection E as <- <- <-. destruct (inv_exit d ss e P h Sd He Iv Ht) as (A&B). auto.
Qed.

(** Vectors in a box. *)
Fixpoint vecs (d B : nat) : list (list Z) := match d with O => [[]] | S d' => flat_map (fun j => map (cons (Z.of_nat j)) (vecs d' B)) (seq 0 (S B)) end.
Lemma in_vecs d B v : In v (vecs d B) <-> length v = d /\ forall i, (i < d)%nat -> 0 <= nth i v 0 <= Z.of_nat B.
Proof.
  revert v. induction d as [|d IH]; intros v.
  - cbn [vecs]. split; [intros [<-|[]]; split; [reflexivity|intros i Hi; lia]|]. intros (L&_). left. destruct v; [reflexivity|discriminate L].
  - cbn [vecs]. rewrite in_flat_map. split.
    + intros (j&Hj&Hv). apply in_seq in Hj. apply in_map_iff in Hv. destruct Hv as (u&<-&Hu). apply IH in Hu. destruct Hu as (Lu&Hu). split; [cbn; lia|]. intros [|i] Hi; cbn [nth]; [lia|apply Hu; lia].
    + intros (L&H). destruct v as [|x u]; [discriminate L|]. cbn [length] in L. pose proof (H 0%nat ltac:(lia)) as H0. cbn [nth] in H0. exists (Z.to_nat x). split; [apply in_seq; lia|]. apply in_map_iff. exists u. split; [f_equal; lia|]. apply IH. split; [lia|]. intros i Hi. apply (H (S i)). lia.
Qed.
Lemma inv_bound d ss e P h : sd d ss -> e < 0 -> inv d ss e P h -> (length P <= length (vecs d (Z.to_nat (- e))))%nat.
Proof.
  intros Sd He (_&ND&FP&_). apply (NoDup_incl_length ND). intros v Iv. rewrite Forall_forall in FP. destruct (FP v Iv) as (W&E). apply in_vecs. split; [apply W|]. intros i Hi. split; [apply W|]. destruct (sd_neg d ss v Sd W) as (_&_&M). specialize (M i Hi). lia.
Qed.
Lemma level_loop_total d ss e : sd d ss -> e < 0 -> forall fuel P coef h, inv d ss e P h ->
  (3 * (length (vecs d (Z.to_nat (- e))) - length P) + length (hv h) < fuel)%nat -> exists r, level_loop fuel ss e P coef h = Ok r.
Proof.
  intros Sd He. induction fuel as [|f IH]; intros P coef h Iv Hf; [lia|]. cbn [level_loop]. destruct (check_top snd e h) eqn:Ht; [|eexists; reflexivity].
  apply check_top_ok in Ht. destruct Ht as (x&Rx&Kx). pose proof Iv as (V&_&_&FH&_). destruct (pop_ok snd h V) as [(En&_)|(x'&h1&Ep&V1&Pm&_&R')]; [unfold hvalues in En; destruct (h_root h); [discriminate Rx|discriminate En]|].
  rewrite Rx in R'. injection R' as <-. rewrite Ep. cbn [bind]. destruct x as [v k]. cbn [snd] in Kx. subst k. pose proof (Permutation_length Pm) as Km. cbn [length] in Km.
  assert (G : good d ss (v, e)) by (rewrite Forall_forall in FH; apply FH, (Permutation_in _ (Permutation_sym Pm)); left; reflexivity). destruct G as (W&Nz&Ev). cbn [fst snd] in W, Nz, Ev.
  destruct (existsb (vec_eqb v) P) eqn:Ex.
  - apply exists_vec in Ex. apply IH; [apply (inv_dup d ss e P h v h1); assumption|lia].
  - assert (Nv : ~ In v P) by (intros I0; apply exists_vec in I0; congruence). destruct (inv_push d ss e P h v Sd He Iv W Nz (eq_sym Ev) Nv h1 V1 Pm) as (l&h2&El&Ea&Iv2&Lh). rewrite El. cbn [bind]. rewrite Ea. cbn [bind].
    apply IH; [exact Iv2|]. pose proof (inv_bound d ss e (v :: P) h2 Sd He Iv2) as Bd. cbn [length] in *. lia.
Qed.
Lemma level_loop_mono ss e : forall f f' P coef h r, (f <= f')%nat -> level_loop f ss e P coef h = Ok r -> level_loop f' ss e P coef h = Ok r.
Proof.
  induction f as [|f IH]; intros f' P coef h r Hf E; [discriminate E|]. destruct f' as [|f']; [lia|]. cbn [level_loop] in *. destruct (check_top snd e h); [|exact E].
  destruct (pop_heap snd h) as [[[[v k] h1]|]|]; cbn [bind] in *; try discriminate E. destruct (existsb (vec_eqb v) P); [apply IH; [lia|exact E]|]. destruct (successors ss e v) as [l|]; cbn [bind] in *; [|discriminate E]. destruct (add_entries l h1) as [h2|]; cbn [bind] in *; [|discriminate E]. apply IH; [lia|exact E].
Qed.
