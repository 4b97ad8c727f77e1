(** The half-open parallelepiped in terms of pairings with the facets; the enumeration loop. *)
From Coq Require Import QArith Qfield.
From Verif Require Import Common ZMat Hermite HermiteProofs Det DetProofs RatVec RatVecSpec IntComb IntCombSpec IntCombProofs Smith SmithSpec SmithProofs Piped PipedSpec PipedProofs PipedProofs2.
Open Scope Q_scope.

Lemma sumq_ext n f g : (forall i, (i < n)%nat -> f i == g i) -> sumq n f == sumq n g.
Proof. induction n as [|n IH]; intros H; cbn [sumq]; [reflexivity|]. rewrite IH by (intros; apply H; lia). rewrite (H n) by lia. reflexivity. Qed.
Lemma sumq_add n f g : sumq n (fun i => f i + g i) == sumq n f + sumq n g.
Proof. induction n as [|n IH]; cbn [sumq]; [reflexivity|]. rewrite IH. ring. Qed.
Lemma sumq_scal n c f : sumq n (fun i => c * f i) == c * sumq n f.
Proof. induction n as [|n IH]; cbn [sumq]; [ring|]. rewrite IH. ring. Qed.
Lemma sumq_0 n : sumq n (fun _ => 0) == 0.
Proof. induction n as [|n IH]; cbn [sumq]; [reflexivity|]. rewrite IH. ring. Qed.
Lemma sumq_swap n m f : sumq n (fun i => sumq m (fun j => f i j)) == sumq m (fun j => sumq n (fun i => f i j)).
Proof. induction n as [|n IH]; cbn [sumq]; [now rewrite sumq_0|]. rewrite IH, <- sumq_add. reflexivity. Qed.
Lemma sumq_inj n f : sumq n (fun i => inject_Z (f i)) == inject_Z (zsum n f).
Proof. induction n as [|n IH]; cbn [sumq zsum]; [reflexivity|]. rewrite inject_Z_plus, IH. reflexivity. Qed.
Lemma sumq_single n f k : (k < n)%nat -> (forall i, (i < n)%nat -> i <> k -> f i == 0) -> sumq n f == f k.
Proof.
  induction n as [|n IH]; intros Hk H; [lia|]. cbn [sumq]. destruct (Nat.eq_dec k n) as [->|N].
  - rewrite (sumq_ext n f (fun _ => 0)) by (intros; apply H; lia). rewrite sumq_0. ring.
  - rewrite IH by (try lia; intros; apply H; lia). rewrite (H n) by lia. ring.
Qed.
Lemma inj_nz s : s <> 0%Z -> ~ inject_Z s == 0.
Proof. intros H E. apply H. unfold Qeq in E. cbn in E. lia. Qed.
Lemma quot_nonneg a b : b <> 0%Z -> (0 <= inject_Z a / inject_Z b <-> (0 <= a * b)%Z).
Proof.
  intros Hb. assert (E : inject_Z (a * b) == inject_Z a / inject_Z b * (inject_Z b * inject_Z b)) by (rewrite inject_Z_mult; field; now apply inj_nz).
  assert (P : 0 < inject_Z b * inject_Z b) by (rewrite <- inject_Z_mult; change 0 with (inject_Z 0); rewrite <- Zlt_Qlt; nia).
  split; intros H.
  - rewrite Zle_Qle. rewrite E. apply Qmult_le_0_compat; auto. now apply Qlt_le_weak.
  - apply (Qmult_le_r _ _ _ P). rewrite <- E, Qmult_0_l. change 0 with (inject_Z 0). now rewrite <- Zle_Qle.
Qed.
Lemma quot_lt1 a b : b <> 0%Z -> (inject_Z a / inject_Z b < 1 <-> (a * b < b * b)%Z).
Proof.
  intros Hb. assert (E : inject_Z (a * b) == inject_Z a / inject_Z b * (inject_Z b * inject_Z b)) by (rewrite inject_Z_mult; field; now apply inj_nz).
  assert (P : 0 < inject_Z b * inject_Z b) by (rewrite <- inject_Z_mult; change 0 with (inject_Z 0); rewrite <- Zlt_Qlt; nia).
  split; intros H.
  - rewrite Zlt_Qlt, E, inject_Z_mult. setoid_replace (inject_Z b * inject_Z b) with (1 * (inject_Z b * inject_Z b)) at 2 by ring. now apply Qmult_lt_compat_r.
  - apply (Qmult_lt_r _ _ _ P). rewrite <- E, Qmult_1_l, <- inject_Z_mult. now rewrite <- Zlt_Qlt.
Qed.
Lemma window_iff P s X d : s <> 0%Z -> ((0 <= (P - s * X) * s < s * s * d)%Z <-> (P / s - d < X <= P / s)%Z).
Proof.
  intros Hs. pose proof (Z.div_mod P s Hs) as DM. pose proof (Z.mod_bound_or P s Hs) as MB. set (q := (P / s)%Z) in *. set (r := (P mod s)%Z) in *.
  replace ((P - s * X) * s)%Z with (s * s * (q - X) + r * s)%Z by nia. assert (RS : (0 <= r * s < s * s)%Z) by nia. assert (SS : (0 < s * s)%Z) by nia. set (t := (s * s)%Z) in *. set (u := (r * s)%Z) in *. clearbody t u. split; intros H; nia.
Qed.
Section Win.
Context (n : nat) (rays facets : list (list Z)) (divs : list Z) (v : rvec) (w : list Z) (s : Z).
Context (DU : dual_to n rays facets divs) (DN : det n (ent rays) <> 0%Z) (Hs : s <> 0%Z) (DV : forall j, (j < n)%nat -> (nth j divs 0 | det n (ent rays))%Z).
Context (SV : forall i, (i < n)%nat -> inject_Z (nth i w 0%Z) == inject_Z s * coord v i).
Let A := ent rays. Let F := ent facets. Let dl := fun j => nth j divs 0%Z. Let dd := Z.abs (det n A).
Let sc := fun j => (dd / dl j)%Z.
Lemma w_pair i j : (i < n)%nat -> (j < n)%nat -> zsum n (fun k => (A i k * F j k)%Z) = if (i =? j)%nat then (- dl j)%Z else 0%Z.
Proof. intros Hi Hj. destruct DU as (_ & _ & P & _). specialize (P i j Hi Hj). rewrite sumz_zsum in P. exact P. Qed.
Lemma w_dl j : (j < n)%nat -> (0 < dl j)%Z.
Proof. intros Hj. destruct DU as (_ & _ & _ & P & _). now apply P. Qed.
Lemma w_dd : (0 < dd)%Z. Proof. unfold dd, A. lia. Qed.
Lemma w_sc j : (j < n)%nat -> (sc j * dl j)%Z = dd.
Proof. intros Hj. unfold sc. assert (D : (dl j | dd)%Z) by (unfold dd; apply Z.divide_abs_r; now apply DV). destruct D as [c Hc]. rewrite Hc, Z.div_mul; auto. pose proof (w_dl j Hj). lia. Qed.
Definition be (i : nat) : Z := (pr n F (fun k => nth k w 0%Z) i / s)%Z.
Lemma in_piped_iff x : length x = n -> (in_parallelepiped n v rays x <-> forall i, (i < n)%nat -> (be i - dl i < pr n F (fun k => nth k x 0%Z) i <= be i)%Z).
Proof.
  intros Lx. set (P := pr n F (fun k => nth k w 0%Z)). set (X := pr n F (fun k => nth k x 0%Z)). pose proof (inj_nz s Hs) as Hsq. split.
  - intros (_ & lam & LB & EQ) i Hi. unfold be. fold (P i). fold (X i). apply (proj1 (window_iff (P i) s (X i) (dl i) Hs)).
    assert (E : lam i == inject_Z (P i - s * X i) / inject_Z (s * dl i)).
    { assert (E1 : inject_Z s * inject_Z (X i) == inject_Z (P i) + inject_Z s * (sumq n (fun j => lam j * inject_Z (zsum n (fun k => (A j k * F i k)%Z))))).
      { unfold X, P, pr. rewrite <- !sumq_inj.
        rewrite <- sumq_scal. rewrite (sumq_ext n _ (fun k => inject_Z (nth k w 0%Z * F i k) + inject_Z s * sumq n (fun j => lam j * (inject_Z (A j k * F i k))))).
        - rewrite sumq_add, sumq_scal. apply Qplus_comp; [reflexivity|]. apply Qmult_comp; [reflexivity|]. rewrite sumq_swap. apply sumq_ext. intros j Hj. rewrite sumq_scal, sumq_inj. reflexivity.
        - intros k Hk. rewrite inject_Z_mult, (EQ k Hk). rewrite inject_Z_mult, (SV k Hk). rewrite (sumq_ext n (fun j => lam j * inject_Z (A j k * F i k)) (fun j => inject_Z (F i k) * (lam j * inject_Z (vat rays j k)))) by (intros j Hj; rewrite inject_Z_mult; unfold vat, A, ent; ring). rewrite sumq_scal. ring. }
      rewrite (sumq_single n _ i Hi) in E1; [|intros j Hj N; rewrite w_pair by auto; rewrite (proj2 (Nat.eqb_neq j i)) by auto; ring].
      rewrite w_pair, Nat.eqb_refl in E1 by auto. rewrite inject_Z_opp in E1. assert (D0 : (0 < dl i)%Z) by (exact (w_dl i Hi)). assert (D1 : dl i <> 0%Z) by (intros D2; rewrite D2 in D0; inversion D0). pose proof (inj_nz (dl i) D1) as Hd. unfold Z.sub. rewrite inject_Z_plus, inject_Z_opp, !inject_Z_mult. rewrite E1. field. split; auto. }
    destruct (LB i Hi) as [L1 L2]. rewrite E in L1, L2. assert (NZ : (s * dl i <> 0)%Z) by (pose proof (w_dl i Hi); nia). apply (proj1 (quot_nonneg _ _ NZ)) in L1. apply (proj1 (quot_lt1 _ _ NZ)) in L2. assert (D0 : (0 < dl i)%Z) by (exact (w_dl i Hi)). rewrite Z.mul_assoc in L1, L2. set (t := ((P i - s * X i) * s)%Z) in *. replace (s * dl i * (s * dl i))%Z with (s * s * dl i * dl i)%Z in L2 by ring. clear -L1 L2 D0. set (e := dl i) in *. clearbody e t. split; [nia|]. apply (Z.mul_lt_mono_pos_r e); auto.
  - intros H. split; auto. exists (fun j => inject_Z ((P j - s * X j) * sc j) / inject_Z (s * dd)). pose proof w_dd as Hdd. assert (NZ : (s * dd <> 0)%Z) by nia. split.
    + intros j Hj. specialize (H j Hj). unfold be in H. fold (P j) in H. fold (X j) in H. apply (proj2 (window_iff (P j) s (X j) (dl j) Hs)) in H. pose proof (w_dl j Hj) as D0. pose proof (w_sc j Hj) as S0. assert (SP : (0 < sc j)%Z) by nia. destruct H as [H1 H2].
      replace ((P j - s * X j) * s)%Z with (s * (P j - s * X j))%Z in H1, H2 by ring. split.
      * apply quot_nonneg; auto. replace ((P j - s * X j) * sc j * (s * dd))%Z with (s * (P j - s * X j) * (sc j * dd))%Z by ring. apply Z.mul_nonneg_nonneg; nia.
      * apply quot_lt1; auto. replace ((P j - s * X j) * sc j * (s * dd))%Z with (s * (P j - s * X j) * (sc j * dd))%Z by ring. replace (s * dd * (s * dd))%Z with (s * s * dl j * (sc j * dd))%Z by (rewrite <- S0; ring). apply Z.mul_lt_mono_pos_r; nia.
    + intros i Hi. pose proof (recover n A F dl sc dd DN w_pair w_sc (fun k => s * nth k x 0 - nth k w 0)%Z i Hi) as RC.
      rewrite (sumq_ext n _ (fun j => / inject_Z (s * dd) * inject_Z ((P j - s * X j) * sc j * A j i))).
      2: { intros j Hj. rewrite (inject_Z_mult ((P j - s * X j) * sc j) (A j i)). unfold vat, A, ent. field. now apply inj_nz. }
      rewrite sumq_scal, sumq_inj. rewrite (zsum_ext n _ (fun i0 => (- pr n F (fun k : nat => (s * nth k x 0 - nth k w 0)%Z) i0 * sc i0 * A i0 i)%Z)).
      2: { intros j Hj. f_equal. f_equal. unfold P, X. rewrite (pr_ext n F (fun k => s * nth k x 0 - nth k w 0)%Z (fun k => s * nth k x 0 + -1 * nth k w 0)%Z) by (intros; ring). rewrite pr_add, !pr_scal. ring. }
      cbv beta in RC. rewrite RC. rewrite !inject_Z_mult. unfold Z.sub. rewrite inject_Z_plus, inject_Z_opp, !inject_Z_mult, (SV i Hi). pose proof (inj_nz dd ltac:(lia)). field. split; auto.
Qed.
End Win.
Open Scope Z_scope.
Lemma drain_ok vs : forall k s s', get_many k s = Ok (s', map Some vs ++ [None]) -> forall f, (length vs < f)%nat -> drain f s = Ok vs.
Proof.
  induction vs as [|x vs IH]; intros k s s' H f Hf; (destruct f as [|f]; [cbn in Hf; lia|]); (destruct k as [|k]; [discriminate|]); cbn [get_many] in H; cbn [drain]; destruct (get_next s) as [[s1 r]|]; cbn [bind] in H |- *; try discriminate; destruct (get_many k s1) as [[s2 rs]|] eqn:E; cbn [bind] in H; try discriminate.
  - cbn [map app] in H. inversion H; subst. reflexivity.
  - cbn [map app] in H. inversion H; subst. rewrite (IH k s1 s' E) by (cbn [length] in Hf; lia). reflexivity.
Qed.
Lemma det_diag n f : det n (fun i j => if (i =? j)%nat then f i else 0) = fold_right Z.mul 1 (map f (seq 0 n)).
Proof.
  revert f; induction n as [|n IH]; intros f; [reflexivity|]. cbn [det]. rewrite (zsum_single (S n) _ 0%nat); [|lia|].
  - cbn [Nat.eqb seq map fold_right]. rewrite <- seq_shift, map_map, <- (IH (fun i => f (S i))). unfold sgn_of. cbn [Nat.even]. rewrite (det_ext n (minor _ 0 0) (fun i j => if (i =? j)%nat then f (S i) else 0)); [ring|]. intros i j Hi Hj. unfold minor, skip. cbn [Nat.ltb Nat.leb]. cbn [Nat.eqb]. reflexivity.
  - intros i Hi N. destruct i; [lia|]. cbn [Nat.eqb]. ring.
Qed.
