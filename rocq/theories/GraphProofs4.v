From Coq Require Import Relations Permutation.
From Verif Require Import Common Text Graph GraphSpec GraphProofs GraphProofs2 GraphProofs3.
Open Scope nat_scope.

Definition typed_pair (n : Z) (l : list (Z * Z)) (a b : nat) : Prop :=
  In (Z.of_nat a, Z.of_nat b) (typed n l) \/ In (Z.of_nat b, Z.of_nat a) (typed n l).
Lemma own_loop_ok n : forall l e, wf e -> Z.of_nat (length e) = n ->
  exists e', own_loop n l e = Ok e' /\ wf e' /\ length e' = length e /\ forall a b, eadj e' a b <-> eadj e a b \/ typed_pair n l a b.
Proof.
  induction l as [|[x y] l IH]; intros e W L.
  - exists e. cbn. split; [reflexivity|]. split; [exact W|]. split; [reflexivity|]. intros a b. unfold typed_pair. cbn. tauto.
  - cbn [own_loop]. unfold typed_pair. cbn [typed]. destruct (Z.eqb_spec x (-1)) as [->|Nx].
    + exists e. split; [reflexivity|]. split; [exact W|]. split; [reflexivity|]. intros a b. cbn [In]. tauto.
    + replace ((x >=? n) || (y >=? n) || (x <? 0) || (y <? 0))%Z with (negb ((0 <=? x) && (x <? n) && (0 <=? y) && (y <? n)))%Z.
      2:{ rewrite !Z.geb_leb. destruct (Z.leb_spec 0 x), (Z.ltb_spec x n), (Z.leb_spec 0 y), (Z.ltb_spec y n), (Z.leb_spec n x), (Z.leb_spec n y), (Z.ltb_spec x 0), (Z.ltb_spec y 0); cbn; lia. }
      destruct ((0 <=? x) && (x <? n) && (0 <=? y) && (y <? n))%Z eqn:G; cbn [negb]; [|apply IH; assumption].
      rewrite !andb_true_iff, !Z.leb_le, !Z.ltb_lt in G. destruct G as (((G1&G2)&G3)&G4).
      destruct (add_edge_ok e (Z.to_nat x) (Z.to_nat y) W) as (e1&fl&E1&W1&L1&A1&_); [lia|lia|]. rewrite E1. cbn [bind fst].
      destruct (IH e1 W1 ltac:(lia)) as (e'&E&W'&L'&A'). exists e'. split; [exact E|]. split; [exact W'|]. split; [lia|].
      intros a b. rewrite A', A1. unfold typed_pair. cbn [In].
      assert (P : forall u v, (x, y) = (Z.of_nat u, Z.of_nat v) <-> u = Z.to_nat x /\ v = Z.to_nat y).
      { intros u v. split; [intros E2; inversion E2; lia|]. intros (->&->). f_equal; lia. }
      rewrite !P. tauto.
Qed.
Lemma own_ok n l : (0 <= n)%Z -> exists g, make_own n l = Ok g /\ stored g /\ numVertex g = n /\ forall a b, adjacent g a b <-> typed_pair n l a b.
Proof.
  intros H. unfold make_own, fresh. rewrite (proj2 (Z.ltb_ge n 0)) by lia. cbn [bind].
  destruct (own_loop_ok n l (repeat [] (Z.to_nat n)) (wf_repeat _)) as (e&E&W&L&A); [rewrite repeat_length; lia|]. rewrite repeat_length in L.
  rewrite E. cbn [bind]. exists (mkGraph n e). split; [reflexivity|]. split; [split; [unfold order; cbn [numVertex edges]; lia|exact W]|]. split; [reflexivity|].
  intros a b. change (adjacent (mkGraph n e) a b) with (eadj e a b). rewrite A. split; [intros [X|X]; [destruct (adj_repeat _ _ _ X)|exact X]|auto].
Qed.

(** ** Histories of calls *)
Definition acceptable (er : err) : Prop := er = OutOfFuel \/ er = Thrown \/ er = DivByZero \/ er = IntOverflow.
Definition good (o : outcome (graph * nat)) : Prop := match o with Ok (g, _) => stored g | Err er => acceptable er end.
Lemma good_keep o pos : match o with Ok g => stored g | Err er => acceptable er end -> good (bind o (fun g' => Ok (g', pos))).
Proof. destruct o; exact (fun H => H). Qed.
Lemma stored_simple n g : simple n g -> stored g.
Proof. intros (_&H&_). exact H. Qed.
Lemma step_good fuel rnd g pos c : stored g -> good (call_step fuel rnd (g, pos) c).
Proof.
  intros S0. destruct c as [n|n|n o|r c| |k| |n k|n k|n l]; cbn [call_step].
  - apply good_keep. destruct (Z_lt_le_dec n 2) as [L|L].
    + unfold make_linear. rewrite (proj2 (Z.leb_le n 1)) by lia. exact S0.
    + destruct (linear_ok g n L) as (g'&->&H&_). exact (stored_simple _ _ H).
  - apply good_keep. destruct (Z_lt_le_dec n 3) as [L|L].
    + unfold make_circle. rewrite (proj2 (Z.leb_le n 2)) by lia. exact S0.
    + destruct (circle_ok g n L) as (g'&->&H&_). exact (stored_simple _ _ H).
  - apply good_keep. destruct (Z_lt_le_dec n 4) as [L|L].
    + unfold make_circle_with_center. rewrite (proj2 (Z.leb_le n 3)) by lia. exact S0.
    + destruct (Z.eq_dec o 0) as [->|D]; [unfold make_circle_with_center; rewrite (proj2 (Z.leb_gt n 3)) by lia; right; right; left; reflexivity|].
      destruct (center_ok g n o L D) as (g'&->&H&_). exact (stored_simple _ _ H).
  - apply good_keep. destruct (Z_lt_le_dec r 2) as [L|L].
    + unfold make_checkerboard. rewrite (proj2 (Z.leb_le r 1)) by lia. exact S0.
    + destruct (Z_lt_le_dec c 2) as [L'|L'].
      * unfold make_checkerboard. rewrite (proj2 (Z.leb_le c 1)) by lia. rewrite orb_true_r. exact S0.
      * destruct (Z_le_gt_dec (r * c) 2147483647) as [I|I].
        -- destruct (checker_ok g r c L L' I) as (g'&->&H&_). exact (stored_simple _ _ H).
        -- unfold make_checkerboard. rewrite (proj2 (Z.leb_gt r 1)), (proj2 (Z.leb_gt c 1)) by lia. cbn [orb].
           replace (int_range (r * c)) with false; [right; right; right; reflexivity|]. symmetry. apply not_true_iff_false. unfold int_range. rewrite andb_true_iff, !Z.leb_le. lia.
  - apply good_keep. rewrite petersen_is_one. destruct (petersens_ok 1) as (g'&->&H&_); [lia|lia|]. exact (stored_simple _ _ H).
  - apply good_keep. unfold make_petersen_fun. destruct (int_range (10 * k)) eqn:I; [|right; right; right; reflexivity].
    destruct (Z_lt_le_dec k 0) as [L|L].
    + unfold build, fresh. rewrite (proj2 (Z.ltb_lt (10 * k) 0)) by lia. right; left; reflexivity.
    + destruct (petersens_ok k) as (g'&E&H&_); [exact L|unfold int_range in I; rewrite andb_true_iff, !Z.leb_le in I; lia|].
      unfold make_petersen_fun in E. rewrite I in E. rewrite E. exact (stored_simple _ _ H).
  - unfold good. destruct (Z_lt_le_dec (numVertex g) 1) as [L|L].
    + unfold spanning_tree. rewrite (proj2 (Z.ltb_lt (numVertex g - 1) 0)) by lia. right; left; reflexivity.
    + destruct (spanning_ok rnd g pos S0 L) as (g'&->&H&_). exact H.
  - unfold random_connected. destruct (Z.leb_spec n 2) as [L1|L1]; [exact S0|].
    destruct (int_range (k + 1)) eqn:I1; cbn [negb]; [|right; right; right; reflexivity].
    destruct (n >? k + 1)%Z eqn:L2; [exact S0|]. destruct (int_range (n * (n - 1))) eqn:I2; cbn [negb]; [|right; right; right; reflexivity].
    destruct (k >? n * (n - 1) / 2)%Z eqn:L3; [exact S0|].
    assert (A : connected_args n k).
    { rewrite Z.gtb_ltb, Z.ltb_ge in L2, L3. unfold int_range in I1, I2. rewrite andb_true_iff, !Z.leb_le in I1, I2. repeat split; lia. }
    pose proof (random_connected_safe fuel rnd g n k pos A) as R. unfold random_connected in R.
    rewrite (proj2 (Z.leb_gt n 2)), I1, L2, I2, L3 in R by lia. cbn [negb] in R.
    destruct R as [->|(g'&p'&->&H&_)]; [left; reflexivity|exact (stored_simple _ _ H)].
  - destruct (Z_lt_le_dec n 4) as [L|L]; [unfold random_disconnected; rewrite (proj2 (Z.ltb_lt n 4)) by lia; exact S0|].
    destruct (int_range (n + 1) && int_range (k + 1)) eqn:I; [|unfold random_disconnected; rewrite (proj2 (Z.ltb_ge n 4)) by lia; rewrite I; right; right; right; reflexivity].
    destruct (Z_lt_le_dec k 0) as [K|K].
    + unfold random_disconnected. rewrite (proj2 (Z.ltb_ge n 4)) by lia. rewrite I. cbn [negb]. destruct (empty_ok n ltac:(lia)) as (E1&_&E2). rewrite E2. cbn [bind].
      destruct (halves n L) as (H1&H2&H3). rewrite (Z.quot_div_nonneg (n + 1) 2) by lia. rewrite (Z.quot_div_nonneg n 2) by lia. fold (half_up n) (half_down n).
      assert (W0 : wf (edges (empty_graph n))) by apply wf_repeat. assert (L0 : length (edges (empty_graph n)) = Z.to_nat n) by apply repeat_length.
      destruct (fill_safe rnd (half_up n) 0 (Z.quot (k + 1) 2) H2 fuel 0 (edges (empty_graph n)) pos W0 ltac:(lia)) as [->|(e1&p1&->&F1)]; [left; reflexivity|].
      cbn [bind fst snd]. pose proof (fi_len _ _ _ _ _ _ F1) as Le1.
      destruct (fill_safe rnd (half_down n) (half_up n) (Z.quot k 2) H3 fuel 0 e1 p1 (fi_wf _ _ _ _ _ _ F1) ltac:(lia)) as [->|(e2&p2&->&F2)]; [left; reflexivity|].
      cbn [bind fst snd good]. pose proof (fi_len _ _ _ _ _ _ F2) as Le2. split; [unfold order; cbn [numVertex edges]; lia|apply F2].
    + assert (A : disconnected_args n k). { unfold int_range in I. rewrite !andb_true_iff, !Z.leb_le in I. split; lia. }
      destruct (random_disconnected_safe fuel rnd g n k pos A) as [->|(g'&p'&->&H&_)]; [left; reflexivity|exact (stored_simple _ _ H)].
  - apply good_keep. destruct (Z_lt_le_dec n 0) as [L|L].
    + unfold make_own, fresh. rewrite (proj2 (Z.ltb_lt n 0)) by lia. right; left; reflexivity.
    + destruct (own_ok n l L) as (g'&->&H&_). exact H.
Qed.
Lemma calls_good fuel rnd : forall l g pos, stored g -> good (calls fuel rnd (g, pos) l).
Proof.
  induction l as [|c l IH]; intros g pos H; [exact H|]. cbn [calls]. pose proof (step_good fuel rnd g pos c H) as G.
  destruct (call_step fuel rnd (g, pos) c) as [(g'&p')|er]; cbn [bind good] in *; [apply IH, G|exact G].
Qed.
Lemma new_stored : stored new_graph.
Proof. split; [reflexivity|]. intros a H. unfold order, new_graph in H. cbn in H. lia. Qed.
