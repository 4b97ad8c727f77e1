(** Formal power series over Q as coefficient functions (a proof library, no model). *)
From Coq Require Import QArith Qfield Qpower.
From Verif Require Import Common IntegSpec IntegMath DecompProofs DecompProofs4.
Open Scope Q_scope.

Definition ser := nat -> Q.
Definition conv (f g : ser) (n : nat) : Q := qsum (fun i => f i * g (n - i)%nat) (seq 0 (S n)).
Definition tail (f : ser) : ser := fun n => f (S n).
Definition sone : ser := fun n => match n with O => 1 | _ => 0 end.
Definition sadd (f g : ser) : ser := fun n => f n + g n.
Definition scal (c : Q) (f : ser) : ser := fun n => c * f n.
(** multiplication by t *)
Definition shift (f : ser) : ser := fun n => match n with O => 0 | S m => f m end.
(** t -> c t *)
Definition sdil (c : Q) (f : ser) : ser := fun n => c ^ Z.of_nat n * f n.
Definition qn (n : nat) : Q := inject_Z (Z.of_nat n).
Definition deriv (f : ser) : ser := fun n => qn (S n) * f (S n).
Notation "f ~= g" := (forall n, f n == g n) (at level 70, no associativity).

Lemma conv_0 f g : conv f g 0 == f O * g O.
Proof. unfold conv. cbn [seq qsum]. rewrite Nat.sub_0_r. ring. Qed.
Lemma conv_S f g n : conv f g (S n) == f O * g (S n) + conv (tail f) g n.
Proof. unfold conv. rewrite qsum_seq_head. rewrite Nat.sub_0_r. reflexivity. Qed.
Lemma conv_S' f g n : conv f g (S n) == conv f (tail g) n + f (S n) * g O.
Proof.
  unfold conv. rewrite qsum_seq_S, Nat.sub_diag. apply Qplus_comp; [|reflexivity]. apply qsum_ext. intros i Hi. apply in_seq in Hi. unfold tail. replace (S n - i)%nat with (S (n - i)) by lia. reflexivity.
Qed.
Lemma conv_ext f f' g g' : f ~= f' -> g ~= g' -> conv f g ~= conv f' g'.
Proof. intros H K n. unfold conv. apply qsum_ext. intros i _. now rewrite H, K. Qed.
(** only coefficients up to n matter *)
Lemma conv_ext_upto n f f' g g' : (forall i, (i <= n)%nat -> f i == f' i) -> (forall i, (i <= n)%nat -> g i == g' i) -> conv f g n == conv f' g' n.
Proof. intros H K. unfold conv. apply qsum_ext. intros i Hi. apply in_seq in Hi. rewrite H, K by lia. reflexivity. Qed.
Lemma conv_comm f g : conv f g ~= conv g f.
Proof. intros n. revert f g. induction n as [|n IH]; intros f g; [rewrite !conv_0; ring|]. rewrite conv_S, (conv_S' g f), IH. ring. Qed.
Lemma conv_add_l f g h : conv (sadd f g) h ~= sadd (conv f h) (conv g h).
Proof. intros n. unfold conv, sadd. rewrite <- qsum_plus. apply qsum_ext. intros i _. ring. Qed.
Lemma conv_scal_l c f h : conv (scal c f) h ~= scal c (conv f h).
Proof. intros n. unfold conv, scal. rewrite <- qsum_scale. apply qsum_ext. intros i _. ring. Qed.
Lemma conv_add_r f g h : conv h (sadd f g) ~= sadd (conv h f) (conv h g).
Proof. intros n. rewrite conv_comm, conv_add_l. unfold sadd. now rewrite (conv_comm f h n), (conv_comm g h n). Qed.
Lemma conv_scal_r c f h : conv h (scal c f) ~= scal c (conv h f).
Proof. intros n. rewrite conv_comm, conv_scal_l. unfold scal. now rewrite (conv_comm f h n). Qed.
Lemma conv_assoc f g h : conv (conv f g) h ~= conv f (conv g h).
Proof.
  intros n. revert f. induction n as [|n IH]; intros f; [rewrite !conv_0; ring|]. rewrite conv_S, (conv_S f (conv g h)), <- IH, conv_0.
  assert (T : conv (tail (conv f g)) h n == f O * conv (tail g) h n + conv (conv (tail f) g) h n).
  { rewrite (conv_ext (tail (conv f g)) (sadd (scal (f O) (tail g)) (conv (tail f) g)) h h).
    - rewrite conv_add_l. unfold sadd. rewrite conv_scal_l. reflexivity.
    - intros m. unfold tail at 1, sadd, scal. apply conv_S.
    - intros m; reflexivity. }
  rewrite T, conv_S. ring.
Qed.
Lemma conv_one_l f : conv sone f ~= f.
Proof. intros n. unfold conv. rewrite qsum_seq_head. cbn [sone]. rewrite Nat.sub_0_r. assert (E : qsum (fun c => 0 * f (n - S c)%nat) (seq 0 n) == 0) by (rewrite qsum_scale; ring). rewrite E. ring. Qed.
Lemma conv_one_r f : conv f sone ~= f.
Proof. intros n. rewrite conv_comm. apply conv_one_l. Qed.
Lemma conv_shift_l f g : conv (shift f) g ~= shift (conv f g).
Proof. intros [|n]; [rewrite conv_0; cbn; ring|]. rewrite conv_S. cbn [shift]. change (tail (shift f)) with f. ring. Qed.
Lemma conv_shift_r f g : conv f (shift g) ~= shift (conv f g).
Proof. intros n. rewrite conv_comm, conv_shift_l. destruct n; cbn; [reflexivity|]. apply conv_comm. Qed.
Lemma conv_dil c f g : ~ c == 0 -> conv (sdil c f) (sdil c g) ~= sdil c (conv f g).
Proof.
  intros Hc n. unfold conv, sdil. rewrite <- qsum_scale. apply qsum_ext. intros i Hi. apply in_seq in Hi.
  replace (Z.of_nat n) with (Z.of_nat i + Z.of_nat (n - i))%Z by lia. rewrite Qpower_plus by auto. ring.
Qed.
Lemma qn_S n : qn (S n) == qn n + 1.
Proof. unfold qn. rewrite Nat2Z.inj_succ. unfold Z.succ. rewrite inject_Z_plus. reflexivity. Qed.
Lemma qn_nz n : ~ qn (S n) == 0.
Proof. unfold qn, Qeq. cbn. lia. Qed.
Lemma deriv_conv f g : deriv (conv f g) ~= sadd (conv (deriv f) g) (conv f (deriv g)).
Proof.
  intros n. unfold deriv at 1. unfold conv at 1. rewrite <- qsum_scale.
  rewrite (qsum_ext _ (fun i => (qn i * f i * g (S n - i)%nat) + (f i * (qn (S n - i) * g (S n - i)%nat)))).
  - rewrite qsum_plus. unfold sadd. apply Qplus_comp.
    + rewrite qsum_seq_head. change (qn 0) with 0. unfold conv, deriv. setoid_replace (0 * f O * g (S n - 0)%nat) with 0 by ring. rewrite Qplus_0_l. reflexivity.
    + rewrite qsum_seq_S, Nat.sub_diag. change (qn 0) with 0. unfold conv, deriv. setoid_replace (f (S n) * (0 * g O)) with 0 by ring. rewrite Qplus_0_r.
      apply qsum_ext. intros i Hi. apply in_seq in Hi. replace (S n - i)%nat with (S (n - i)) by lia. reflexivity.
  - intros i Hi. apply in_seq in Hi. assert (E : qn (S n) == qn i + qn (S n - i)).
    { unfold qn. rewrite <- inject_Z_plus. replace (Z.of_nat i + Z.of_nat (S n - i))%Z with (Z.of_nat (S n)) by lia. reflexivity. }
    rewrite E. ring.
Qed.
(** A series is determined by its constant term and f' = c f. *)
Fixpoint qfact (n : nat) : Q := match n with O => 1 | S m => qn (S m) * qfact m end.
Lemma qfact_nz n : ~ qfact n == 0.
Proof. induction n as [|n IH]; cbn [qfact]; [discriminate|]. intros E. apply Qmult_integral in E as [E|E]; [now apply (qn_nz n)|auto]. Qed.
Definition sexp (a : Q) : ser := fun n => a ^ Z.of_nat n / qfact n.
Lemma Qpow_S a n : a ^ Z.of_nat (S n) == a * a ^ Z.of_nat n.
Proof.
  destruct (Qeq_dec a 0) as [E|E].
  - rewrite E. rewrite (Qpower_0 (Z.of_nat (S n))) by lia. ring.
  - rewrite Nat2Z.inj_succ. unfold Z.succ. rewrite Qpower_plus by auto. rewrite Qpower_1_r. ring.
Qed.
Lemma deriv_exp a : deriv (sexp a) ~= scal a (sexp a).
Proof. intros n. unfold deriv, scal, sexp. rewrite Qpow_S. cbn [qfact]. field. split; [apply qfact_nz|apply qn_nz]. Qed.
Lemma ode_unique a f g : deriv f ~= scal a f -> deriv g ~= scal a g -> f O == g O -> f ~= g.
Proof.
  intros F G H n. induction n as [|n IH]; auto. specialize (F n). specialize (G n). unfold deriv, scal in F, G. rewrite IH, <- G in F.
  apply (Qmult_inj_l _ _ _ (qn_nz n)). exact F.
Qed.
Lemma exp_add a b : conv (sexp a) (sexp b) ~= sexp (a + b).
Proof.
  apply (ode_unique (a + b)).
  - intros n. rewrite deriv_conv. unfold sadd. rewrite (conv_ext _ (scal a (sexp a)) _ (sexp b) (deriv_exp a) (fun _ => Qeq_refl _)), (conv_ext (sexp a) (sexp a) _ (scal b (sexp b)) (fun _ => Qeq_refl _) (deriv_exp b)).
    rewrite conv_scal_l, conv_scal_r. unfold scal. ring.
  - apply deriv_exp.
  - rewrite conv_0. reflexivity.
Qed.
Lemma exp_0 : sexp 0 ~= sone.
Proof. intros [|n]; [reflexivity|]. unfold sexp. rewrite Qpow_S. cbn [sone]. field. apply qfact_nz. Qed.
(** Reciprocals *)
Fixpoint inv_list (f : ser) (n : nat) : list Q :=
  match n with O => [] | S m => let l := inv_list f m in
    l ++ [match m with O => / f O | _ => - (/ f O) * qsum (fun i => f (m - i)%nat * nth i l 0) (seq 0 m) end] end.
Definition sinv (f : ser) : ser := fun n => nth n (inv_list f (S n)) 0.
Lemma inv_list_len f n : length (inv_list f n) = n.
Proof. induction n as [|n IH]; cbn [inv_list]; auto. rewrite app_length, IH. cbn. lia. Qed.
Lemma inv_list_nth f i : forall n, (i < n)%nat -> nth i (inv_list f n) 0 = sinv f i.
Proof.
  induction n as [|n IH]; intros H; [lia|]. destruct (Nat.eq_dec i n) as [->|N]; [reflexivity|].
  cbn [inv_list]. rewrite app_nth1 by (rewrite inv_list_len; lia). apply IH. lia.
Qed.
Lemma sinv_0 f : sinv f O = / f O. Proof. reflexivity. Qed.
Lemma sinv_S f n : sinv f (S n) == - (/ f O) * qsum (fun i => f (S n - i)%nat * sinv f i) (seq 0 (S n)).
Proof.
  unfold sinv at 1. change (inv_list f (S (S n))) with (let l := inv_list f (S n) in l ++ [- (/ f O) * qsum (fun i => f (S n - i)%nat * nth i l 0) (seq 0 (S n))]). cbv zeta.
  rewrite app_nth2 by (rewrite inv_list_len; lia). rewrite inv_list_len, Nat.sub_diag. cbn [nth].
  apply Qmult_comp; [reflexivity|]. apply qsum_ext. intros i Hi. apply in_seq in Hi. rewrite inv_list_nth by lia. reflexivity.
Qed.
Lemma conv_inv f : ~ f O == 0 -> conv (sinv f) f ~= sone.
Proof.
  intros H [|n]; [rewrite conv_0, sinv_0; cbn [sone]; field; auto|]. unfold conv. rewrite qsum_seq_S, Nat.sub_diag, sinv_S. cbn [sone].
  rewrite (qsum_ext (fun i => sinv f i * f (S n - i)%nat) (fun i => f (S n - i)%nat * sinv f i)) by (intros; ring). field. auto.
Qed.
Lemma conv_cancel f g h : ~ f O == 0 -> conv g f ~= conv h f -> g ~= h.
Proof.
  intros H E n. rewrite <- (conv_one_r g n), <- (conv_one_r h n).
  assert (I : sone ~= conv f (sinv f)) by (intros m; rewrite conv_comm, (conv_inv f H m); reflexivity).
  rewrite (conv_ext g g _ _ (fun _ => Qeq_refl _) I n), (conv_ext h h _ _ (fun _ => Qeq_refl _) I n), <- !conv_assoc. now apply conv_ext.
Qed.
(** (e^{ct} - 1)/t with the constant term c *)
Definition phi (c : Q) : ser := tail (sexp c).
Lemma exp_phi c : sexp c ~= sadd sone (shift (phi c)).
Proof. intros [|n]; unfold sadd, shift, phi, tail; cbn [sone]; [unfold sexp; cbn; field|ring]. Qed.
