(** The expansion of a cone at infinity of the cost, and uniqueness of expansions. *)
From Coq Require Import Permutation.
From Verif Require Import Common ExpSpec ExpProofs3 BrionProofs BrionProofs2 BrionProofs3 TrieProofs DigHeap DigHeapProofs Dig DigProofs DigProofs2.
Open Scope Z_scope.

Lemma idot_comm a : forall b, idot a b = idot b a.
Proof. induction a as [|x a IH]; intros [|y b]; cbn [idot]; try reflexivity. rewrite IH. ring. Qed.
Lemma idot_vadd c u v : length u = length v -> idot c (vadd u v) = idot c u + idot c v.
Proof. revert u v. induction c as [|x c IH]; intros [|y u] [|z v] L; cbn [length] in L; cbn [idot vadd]; try lia. rewrite IH by lia. ring. Qed.
Lemma idot_scale k : forall c u, idot c (map (Z.mul k) u) = k * idot c u.
Proof. induction c as [|x c IH]; intros [|y u]; cbn [idot map]; try lia. rewrite IH. ring. Qed.
Lemma idot_opp c u : idot c (map Z.opp u) = - idot c u.
Proof. revert u. induction c as [|x c IH]; intros [|y u]; cbn [idot map]; try lia. rewrite IH. ring. Qed.
Lemma idot_vsub c u v : length u = length v -> idot c (vsub u v) = idot c u - idot c v.
Proof. intros L. unfold vsub. rewrite idot_vadd by (rewrite map_length; exact L). rewrite idot_opp. lia. Qed.
Lemma vec_eqb_true u v : vec_eqb u v = true <-> u = v.
Proof. unfold vec_eqb. destruct (list_eq_dec Z.eq_dec u v); split; congruence. Qed.

Lemma vec_eqb_sym u v : vec_eqb u v = vec_eqb v u.
Proof. unfold vec_eqb. destruct (list_eq_dec Z.eq_dec u v), (list_eq_dec Z.eq_dec v u); congruence. Qed.

(** ** Counting representations *)
Definition muls (j : nat) (r : list Z) : list Z := map (Z.mul (Z.of_nat j)) r.
Lemma muls_len j r : length (muls j r) = length r.
Proof. apply map_length. Qed.
Lemma muls_nth j r k : nth k (muls j r) 0 = Z.of_nat j * nth k r 0.
Proof. unfold muls. rewrite <- (map_nth (Z.mul (Z.of_nat j))). f_equal. lia. Qed.
Section Expansion.
Context (n : nat) (cost a : list Z) (La : length a = n).
Fixpoint reps (B : nat) (R : list (list Z)) (x : list Z) : Z :=
  match R with [] => if vec_eqb x a then 1 else 0 | r :: R' => lsum (map (fun j => reps B R' (vsub x (muls j r))) (seq 0 (S B))) end.
Definition down (r : list Z) : Prop := length r = n /\ idot cost r < 0.
Lemma sub_muls_dot x r j : length x = n -> length r = n -> idot cost (vsub x (muls j r)) = idot cost x - Z.of_nat j * idot cost r.
Proof. intros Hx Hr. rewrite idot_vsub by (rewrite muls_len; lia). unfold muls. rewrite idot_scale. reflexivity. Qed.
Lemma sub_muls_len x r j : length x = n -> length r = n -> length (vsub x (muls j r)) = n.
Proof. intros Hx Hr. apply vsub_len; [exact Hx|rewrite muls_len; exact Hr]. Qed.
Lemma lsum_zero {A} (f : A -> Z) l : (forall x, In x l -> f x = 0) -> lsum (map f l) = 0.
Proof. induction l as [|x l IH]; intros H; [reflexivity|]. cbn [map]. rewrite lsum_cons, (H x (or_introl eq_refl)), IH by (intros y Hy; apply H; right; exact Hy). reflexivity. Qed.
Lemma reps_vanish B R : Forall down R -> forall x, length x = n -> idot cost a < idot cost x -> reps B R x = 0.
Proof.
  induction 1 as [|r R (Lr&Dr) F IH]; intros x Hx H; cbn [reps].
  - destruct (vec_eqb x a) eqn:E; [|reflexivity]. apply vec_eqb_true in E. subst x. lia.
  - apply lsum_zero. intros j _. apply IH; [apply sub_muls_len; assumption|]. rewrite sub_muls_dot by assumption. nia.
Qed.
Lemma reps_stable B B' R : Forall down R -> (B <= B')%nat -> forall x, length x = n -> idot cost a - idot cost x <= Z.of_nat B -> reps B R x = reps B' R x.
Proof.
  intros F HB. induction F as [|r R (Lr&Dr) F IH]; intros x Hx H; cbn [reps]; [reflexivity|].
  replace (S B') with (S B + (B' - B))%nat by lia. rewrite seq_app, map_app, lsum_app. rewrite (lsum_zero _ (seq (0 + S B) _)).
  - rewrite Z.add_0_r. apply lsum_ext. intros j _. apply IH; [apply sub_muls_len; assumption|]. rewrite sub_muls_dot by assumption. nia.
  - intros j Hj. apply in_seq in Hj. apply reps_vanish; [exact F|apply sub_muls_len; assumption|]. rewrite sub_muls_dot by assumption. nia.
Qed.
Definition expansion (R : list (list Z)) (x : list Z) : Z := reps (Z.to_nat (idot cost a - idot cost x)) R x.
Lemma expansion_reps R B x : Forall down R -> length x = n -> idot cost a - idot cost x <= Z.of_nat B -> expansion R x = reps B R x.
Proof. intros F Hx H. unfold expansion. apply reps_stable; [exact F|lia|exact Hx|lia]. Qed.
Lemma expansion_vanish R x : Forall down R -> length x = n -> idot cost a < idot cost x -> expansion R x = 0.
Proof. intros F Hx H. apply reps_vanish; assumption. Qed.
Lemma vsub_muls x r j : length x = n -> length r = n -> vsub (vsub x r) (muls j r) = vsub x (muls (S j) r).
Proof.
  intros Hx Hr. apply (vec_ext n); [apply sub_muls_len; [apply vsub_len; assumption|exact Hr]|apply sub_muls_len; assumption|]. intros k _.
  rewrite !vsub_nth by (rewrite ?muls_len, ?(vsub_len n); lia). rewrite !muls_nth. lia.
Qed.
Lemma vsub_muls0 x r : length x = n -> length r = n -> vsub x (muls 0 r) = x.
Proof. intros Hx Hr. apply (vec_ext n); [apply sub_muls_len; assumption|exact Hx|]. intros k _. rewrite vsub_nth by (rewrite muls_len; lia). rewrite muls_nth. lia. Qed.
Lemma expansion_diff r R : Forall down (r :: R) -> eqn n (diff r (expansion (r :: R))) (expansion R).
Proof.
  intros F x Hx. destruct (Forall_inv F) as (Lr&Dr). pose proof (Forall_inv_tail F) as FR. assert (Lx : length (vsub x r) = n) by now apply vsub_len. pose proof (idot_vsub cost x r ltac:(lia)) as Ed.
  set (B := Z.to_nat (Z.abs (idot cost a) + Z.abs (idot cost x))). unfold diff. rewrite (expansion_reps (r :: R) B x F Hx), (expansion_reps (r :: R) B (vsub x r) F Lx), (expansion_reps R B x FR Hx) by lia. cbn [reps].
  rewrite (map_ext_in (fun j => reps B R (vsub (vsub x r) (muls j r))) (fun j => reps B R (vsub x (muls (S j) r)))) by (intros j _; rewrite vsub_muls by assumption; reflexivity).
  rewrite <- (map_map S (fun j => reps B R (vsub x (muls j r)))), seq_shift. rewrite (seq_S B 1), map_app, lsum_app. cbn [seq map]. rewrite !lsum_cons. change (lsum []) with 0. rewrite vsub_muls0 by assumption.
  rewrite (reps_vanish B R FR (vsub x (muls (1 + B) r))); [lia|apply sub_muls_len; assumption|]. rewrite sub_muls_dot by assumption. nia.
Qed.
Lemma expansion_diffs R : Forall down R -> eqn n (diffs R (expansion R)) (fun x => if vec_eqb x a then 1 else 0).
Proof.
  induction 1 as [|r R D F IH]; intros x Hx; [reflexivity|]. cbn [diffs fold_right]. fold (diffs R (expansion (r :: R))). rewrite diff_diffs.
  rewrite (diffs_ext n R _ (expansion R)); [apply IH, Hx| | |exact Hx].
  - intros s Hs. rewrite Forall_forall in F. apply (F s Hs).
  - apply expansion_diff. constructor; assumption.
Qed.
(** The point of a vector of multiplicities. *)
Fixpoint point_of (R : list (list Z)) (v : list Z) : list Z := match R, v with r :: R', j :: v' => vadd (point_of R' v') (map (Z.mul j) r) | _, _ => a end.
Lemma point_len R v : Forall (fun r => length r = n) R -> length (point_of R v) = n.
Proof. revert v. induction R as [|r R IH]; intros v F; [destruct v; exact La|]. destruct v as [|j v]; [exact La|]. cbn [point_of]. specialize (IH v (Forall_inv_tail F)). pose proof (Forall_inv F) as Lr. cbv beta in Lr. rewrite vadd_len; [exact IH|rewrite map_length; lia]. Qed.
Lemma point_dot R v : Forall (fun r => length r = n) R -> idot cost (point_of R v) = idot cost a + idot (map (idot cost) R) v.
Proof.
  revert v. induction R as [|r R IH]; intros v F; [destruct v; cbn [point_of map idot]; lia|]. destruct v as [|j v]; [cbn; lia|]. cbn [point_of map idot]. pose proof (Forall_inv_tail F) as FR. pose proof (Forall_inv F) as Lr. cbv beta in Lr. rewrite idot_vadd by (rewrite point_len by exact FR; rewrite map_length; lia). rewrite IH, idot_scale by exact FR. ring.
Qed.
Definition hits (R : list (list Z)) (x : list Z) (L : list (list Z)) : list (list Z) := filter (fun v => vec_eqb (point_of R v) x) L.
Lemma filter_map_len {A B} (f : A -> B) (p : B -> bool) l : length (filter p (map f l)) = length (filter (fun x => p (f x)) l).
Proof. induction l as [|x l IH]; [reflexivity|]. cbn [map filter]. destruct (p (f x)); cbn [length]; lia. Qed.
Lemma filter_ext_len {A} (p q : A -> bool) l : (forall x, In x l -> p x = q x) -> length (filter p l) = length (filter q l).
Proof. induction l as [|x l IH]; intros H; [reflexivity|]. cbn [filter]. rewrite (H x (or_introl eq_refl)). specialize (IH (fun y Hy => H y (or_intror Hy))). destruct (q x); cbn [length]; lia. Qed.
Lemma reps_vecs B R : Forall (fun r => length r = n) R -> forall x, length x = n -> reps B R x = Z.of_nat (length (hits R x (vecs (length R) B))).
Proof.
  induction 1 as [|r R Lr F IH]; intros x Hx; cbn [reps length].
  - cbn [vecs hits filter point_of]. unfold hits. cbn [filter point_of]. rewrite (vec_eqb_sym a x). destruct (vec_eqb x a); reflexivity.
  - cbn [vecs]. unfold hits. assert (G : forall js, lsum (map (fun j => reps B R (vsub x (muls j r))) js) = Z.of_nat (length (filter (fun v => vec_eqb (point_of (r :: R) v) x) (flat_map (fun j => map (cons (Z.of_nat j)) (vecs (length R) B)) js)))); [|apply G].
    induction js as [|j js IHj]; [reflexivity|]. cbn [map flat_map]. rewrite lsum_cons, IHj. rewrite filter_app, app_length, Nat2Z.inj_add. f_equal. rewrite (IH (vsub x (muls j r)) (sub_muls_len x r j Hx Lr)). f_equal. rewrite filter_map_len. unfold hits. apply filter_ext_len. intros v _. cbn [point_of]. fold (muls j r).
    pose proof (point_len R v F) as Lp. pose proof (vadd_vsub n (muls j r) (point_of R v) x ltac:(rewrite muls_len; exact Lr) Lp Hx) as VS. rewrite vadd_comm in VS.
    destruct (vec_eqb (point_of R v) (vsub x (muls j r))) eqn:E1, (vec_eqb (vadd (point_of R v) (muls j r)) x) eqn:E2; try reflexivity; exfalso.
    + apply vec_eqb_true in E1. apply (proj2 VS), vec_eqb_true in E1. congruence.
    + apply vec_eqb_true in E2. apply (proj1 VS), vec_eqb_true in E2. congruence.
Qed.
Lemma vecs_nodup d B : NoDup (vecs d B).
Proof.
  induction d as [|d IH]; [constructor; [intros []|constructor]|]. cbn [vecs]. generalize (seq_NoDup (S B) 0). generalize (seq 0 (S B)). induction l as [|j l IHl]; intros ND; [constructor|]. cbn [flat_map]. inversion ND as [|? ? N1 N2]; subst. apply NoDup_app_intro; [|apply IHl, N2|].
  - apply FinFun.Injective_map_NoDup; [intros u v [= E]; exact E|exact IH].
  - intros v Hv Hv'. apply in_map_iff in Hv. destruct Hv as (u&<-&_). apply in_flat_map in Hv'. destruct Hv' as (j'&Hj'&Hu). apply in_map_iff in Hu. destruct Hu as (u'&E&_). injection E as E _. assert (j' = j) by lia. subst. contradiction.
Qed.
Lemma expansion_level R L e x : Forall down R -> (length R = 0%nat -> False) -> level_ok (length R) (map (idot cost) R) e L -> length x = n -> idot cost x = idot cost a + e -> expansion R x = Z.of_nat (length (hits R x L)).
Proof.
  intros F _ (ND&HL) Hx Ex. assert (FL : Forall (fun r => length r = n) R) by (revert F; apply Forall_impl; intros r (A&_); exact A). rewrite (expansion_reps R (Z.to_nat (- e)) x F Hx) by lia. rewrite reps_vecs by assumption. f_equal.
  apply Permutation_length, NoDup_Permutation; [apply NoDup_filter, vecs_nodup|apply NoDup_filter, ND|]. intros v. unfold hits. rewrite !filter_In, in_vecs, HL. split.
  - intros ((Lv&Bv)&Pv). split; [|exact Pv]. apply vec_eqb_true in Pv. pose proof (point_dot R v FL) as Pd. rewrite Pv in Pd. split; [split; [exact Lv|]|lia]. intros i. destruct (Nat.lt_ge_cases i (length R)); [apply Bv; assumption|]. rewrite nth_overflow by lia. lia.
  - intros ((W&Ev)&Pv). split; [|exact Pv]. split; [apply W|]. intros i Hi. split; [apply W|]. destruct (idot_neg (map (idot cost) R) v) as (_&_&M).
    + rewrite map_length. apply W.
    + intros k Hk. rewrite map_length in Hk. rewrite (nth_indep _ 0 (idot cost [])) by (rewrite map_length; exact Hk). rewrite map_nth. rewrite Forall_forall in F. apply (F (nth k R [])), nth_In, Hk.
    + apply W.
    + specialize (M i ltac:(destruct W; lia)). lia.
Qed.
End Expansion.

(** ** Flipping rays *)
Fixpoint shift_of (cost : list Z) (rays : list (list Z)) (p : list Z) : list Z :=
  match rays with [] => p | r :: rays' => shift_of cost rays' (if 0 <? idot cost r then vsub p r else p) end.
Lemma flip_len n cost r : length r = n -> length (flip cost r) = n.
Proof. intros H. unfold flip. destruct (0 <? idot cost r); [rewrite map_length|]; exact H. Qed.
Lemma flip_down n cost r : length r = n -> idot cost r <> 0 -> down n cost (flip cost r).
Proof. intros H N. split; [apply flip_len, H|]. unfold flip. destruct (Z.ltb_spec 0 (idot cost r)); [rewrite idot_opp|]; lia. Qed.
Lemma shift_len n cost rays : Forall (fun r => length r = n) rays -> forall p, length p = n -> length (shift_of cost rays p) = n.
Proof. induction 1 as [|r rays Lr F IH]; intros p Lp; [exact Lp|]. cbn [shift_of]. apply IH. destruct (0 <? idot cost r); [apply vsub_len; assumption|exact Lp]. Qed.
Lemma shift_dot n cost rays : Forall (fun r => length r = n) rays -> forall p, length p = n -> idot cost (shift_of cost rays p) = idot cost p - up_sum cost rays.
Proof.
  induction 1 as [|r rays Lr F IH]; intros p Lp; cbn [shift_of up_sum fold_right]; [lia|]. fold (up_sum cost rays). rewrite IH by (destruct (0 <? idot cost r); [apply vsub_len; assumption|exact Lp]). destruct (0 <? idot cost r); [rewrite idot_vsub by lia|]; lia.
Qed.
Definition delta (a x : list Z) : Z := if vec_eqb x a then 1 else 0.
Lemma delta_sub n a r x : length a = n -> length r = n -> length x = n -> delta (vsub a r) (vsub x r) = delta a x.
Proof.
  intros La Lr Lx. unfold delta. assert (E : vsub x r = vsub a r <-> x = a).
  { split; [|congruence]. intros E. apply (vec_ext n); [exact Lx|exact La|]. intros i _. apply (f_equal (fun l => nth i l 0)) in E. rewrite !vsub_nth in E by lia. lia. }
  destruct (vec_eqb (vsub x r) (vsub a r)) eqn:E1, (vec_eqb x a) eqn:E2; try reflexivity; exfalso.
  - apply vec_eqb_true, E, vec_eqb_true in E1. congruence.
  - apply vec_eqb_true, E, vec_eqb_true in E2. congruence.
Qed.
Lemma vsub_opp n x r : length x = n -> length r = n -> vsub (vsub x r) (map Z.opp r) = x.
Proof.
  intros Lx Lr. apply (vec_ext n); [apply vsub_len; [apply vsub_len; assumption|rewrite map_length; exact Lr]|exact Lx|]. intros i _. rewrite !vsub_nth by (rewrite ?map_length, ?(vsub_len n); lia). change 0 with (- 0) at 3. rewrite map_nth. lia.
Qed.
Lemma flip_diffs n cost rays : Forall (fun r => length r = n) rays -> forall a F s, length a = n ->
  eqn n (diffs (map (flip cost) rays) F) (fun x => s * delta (shift_of cost rays a) x) -> eqn n (diffs rays F) (fun x => flips cost rays * s * delta a x).
Proof.
  induction 1 as [|r rays Lr FR IH]; intros a F s La H x Hx.
  - cbn [diffs fold_right flips]. specialize (H x Hx). cbn [map diffs fold_right shift_of] in H. rewrite H. ring.
  - set (a1 := if 0 <? idot cost r then vsub a r else a). assert (La1 : length a1 = n) by (unfold a1; destruct (0 <? idot cost r); [apply vsub_len; assumption|exact La]).
    assert (H1 : eqn n (diffs (map (flip cost) rays) (diff (flip cost r) F)) (fun x => s * delta (shift_of cost rays a1) x)).
    { intros y Hy. rewrite <- diff_diffs. apply (H y Hy). }
    specialize (IH a1 (diff (flip cost r) F) s La1 H1). assert (G : eqn n (diff (flip cost r) (diffs rays F)) (fun x => flips cost rays * s * delta a1 x)) by (intros y Hy; rewrite diff_diffs; apply IH, Hy).
    cbn [diffs fold_right flips]. fold (diffs rays F) (flips cost rays). unfold flip, a1 in G. destruct (0 <? idot cost r).
    + assert (Ly : length (vsub x r) = n) by now apply vsub_len. specialize (G (vsub x r) Ly). cbv beta in G. rewrite (delta_sub n) in G by assumption. unfold diff in G. rewrite (vsub_opp n) in G by assumption. unfold diff. lia.
    + specialize (G x Hx). cbv beta in G. rewrite G. ring.
Qed.
Lemma diffs_perm R R' : Permutation R R' -> forall F x, diffs R F x = diffs R' F x.
Proof.
  induction 1 as [|r R R' P IH|r s R|R R1 R2 P1 IH1 P2 IH2]; intros F x; [reflexivity| | |rewrite IH1; apply IH2].
  - rewrite !diffs_cons, !IH. reflexivity.
  - cbn [diffs fold_right]. apply diff_comm.
Qed.

(** ** Uniqueness *)
Definition bounded_above (n : nat) (cost : list Z) (F : lfun) : Prop := exists K, forall x, length x = n -> K < idot cost x -> F x = 0.
Lemma diff_above n cost r F : length r = n -> bounded_above n cost F -> bounded_above n cost (diff r F).
Proof.
  intros Lr (K&H). exists (K + Z.abs (idot cost r)). intros x Hx Hk. unfold diff. rewrite !H; [reflexivity|apply vsub_len; assumption| |exact Hx|lia]. rewrite idot_vsub by lia. lia.
Qed.
Lemma diff_above_inj n cost r F : length r = n -> idot cost r <> 0 -> bounded_above n cost F -> eqn n (diff r F) (fun _ => 0) -> eqn n F (fun _ => 0).
Proof.
  intros Lr Nr (K&H) E x Hx.
  destruct (Z_lt_le_dec 0 (idot cost r)) as [P|Ng].
  - assert (It : forall m, exists y, length y = n /\ F y = F x /\ idot cost y = idot cost x + Z.of_nat m * idot cost r).
    { induction m as [|m (y&Ly&Fy&Dy)]; [exists x; split; [exact Hx|split; [reflexivity|lia]]|]. exists (vadd y r). assert (Lz : length (vadd y r) = n) by (rewrite vadd_len; lia). split; [exact Lz|]. split; [|rewrite idot_vadd by lia; lia].
      specialize (E (vadd y r) Lz). unfold diff in E. replace (vsub (vadd y r) r) with y in E; [cbv beta in E; lia|]. apply (vec_ext n); [exact Ly|apply vsub_len; assumption|]. intros i _. rewrite vsub_nth by lia. rewrite vadd_nth by lia. lia. }
    destruct (It (Z.to_nat (Z.abs K + Z.abs (idot cost x) + 1))) as (y&Ly&Fy&Dy). rewrite <- Fy. apply H; [exact Ly|]. rewrite Dy, Z2Nat.id by lia. nia.
  - assert (It : forall m, exists y, length y = n /\ F y = F x /\ idot cost y = idot cost x - Z.of_nat m * idot cost r).
    { induction m as [|m (y&Ly&Fy&Dy)]; [exists x; split; [exact Hx|split; [reflexivity|lia]]|]. exists (vsub y r). split; [apply vsub_len; assumption|]. split; [|rewrite idot_vsub by lia; lia]. specialize (E y Ly). unfold diff in E. cbv beta in E. lia. }
    destruct (It (Z.to_nat (Z.abs K + Z.abs (idot cost x) + 1))) as (y&Ly&Fy&Dy). rewrite <- Fy. apply H; [exact Ly|]. rewrite Dy, Z2Nat.id by lia. nia.
Qed.
Lemma diffs_above_inj n cost R : Forall (fun r => length r = n /\ idot cost r <> 0) R -> forall F, bounded_above n cost F -> eqn n (diffs R F) (fun _ => 0) -> eqn n F (fun _ => 0).
Proof.
  induction 1 as [|r R (Lr&Nr) FR IH]; intros F Bd E; [exact E|]. apply (diff_above_inj n cost r F Lr Nr Bd). apply IH; [apply diff_above; assumption|]. intros x Hx. rewrite <- diff_diffs. apply (E x Hx).
Qed.
