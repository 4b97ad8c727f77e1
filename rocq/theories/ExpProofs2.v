(** Exponential residues of one cone. *)
From Coq Require Import QArith Qfield Qpower Lqa.
From Verif Require Import Common IntegSpec IntegMath DecompProofs DecompProofs4 InterpProofs2 Series HermiteProofs Piped Exponential ExpSpec ExpProofs.
Open Scope Q_scope.

Lemma scal_ext c f g : f ~= g -> scal c f ~= scal c g.
Proof. intros H n. unfold scal. now rewrite H. Qed.
Lemma shift_ext f g : f ~= g -> shift f ~= shift g.
Proof. intros H [|n]; cbn [shift]; [reflexivity|apply H]. Qed.
Lemma iter_shift_ext d f g : f ~= g -> Nat.iter d shift f ~= Nat.iter d shift g.
Proof. intros H. induction d as [|d IH]; cbn [Nat.iter nat_rect]; auto. now apply shift_ext. Qed.
Lemma iter_shift_nth d f n : Nat.iter d shift f (d + n)%nat = f n.
Proof. induction d as [|d IH]; [reflexivity|]. cbn [Nat.iter nat_rect Nat.add shift]. exact IH. Qed.
Lemma iter_shift_inj d f g : Nat.iter d shift f ~= Nat.iter d shift g -> f ~= g.
Proof. intros H n. rewrite <- (iter_shift_nth d f n), <- (iter_shift_nth d g n). apply H. Qed.
Lemma conv_iter_l d f g : conv (Nat.iter d shift f) g ~= Nat.iter d shift (conv f g).
Proof. induction d as [|d IH]; intros n; [reflexivity|]. cbn [Nat.iter nat_rect]. rewrite conv_shift_l. apply shift_ext. exact IH. Qed.
Lemma conv_iter_r d f g : conv f (Nat.iter d shift g) ~= Nat.iter d shift (conv f g).
Proof. intros n. rewrite conv_comm, conv_iter_l. apply iter_shift_ext. apply conv_comm. Qed.
Lemma shift_scal c f : shift (scal c f) ~= scal c (shift f).
Proof. intros [|n]; unfold scal; cbn [shift]; ring. Qed.
Lemma iter_shift_scal d c f : Nat.iter d shift (scal c f) ~= scal c (Nat.iter d shift f).
Proof. induction d as [|d IH]; intros n; [reflexivity|]. cbn [Nat.iter nat_rect]. rewrite (shift_ext _ _ IH n). apply shift_scal. Qed.
Lemma shift_add f g : shift (sadd f g) ~= sadd (shift f) (shift g).
Proof. intros [|n]; unfold sadd; cbn [shift]; [ring|reflexivity]. Qed.
Lemma iter_shift_add d f g : Nat.iter d shift (sadd f g) ~= sadd (Nat.iter d shift f) (Nat.iter d shift g).
Proof. induction d as [|d IH]; intros n; [reflexivity|]. cbn [Nat.iter nat_rect]. rewrite (shift_ext _ _ IH n). apply shift_add. Qed.

(** 1 - exp(rt) = r t (1 - exp(rt))/(rt) *)
Lemma ome_split r : one_minus_exp r ~= shift (scal (inject_Z r) (exp_quotient r)).
Proof.
  intros [|n]; unfold one_minus_exp, sexp; cbn [sone shift]; [cbn; field|]. unfold scal, exp_quotient. rewrite Qpow_S. field. apply qfact_nz.
Qed.
Fixpoint zprodl (l : list Z) : Z := match l with [] => 1%Z | r :: l' => (r * zprodl l')%Z end.
Lemma fold_mul l : forall a, fold_left Z.mul l a = (a * zprodl l)%Z.
Proof. induction l as [|r l IH]; intros a; cbn [fold_left zprodl]; [lia|]. rewrite IH. lia. Qed.
Lemma zprodl_nz l : existsb (fun s => Z.eqb s 0) l = false <-> zprodl l <> 0%Z.
Proof.
  induction l as [|r l IH]; cbn [existsb zprodl]; [split; auto; lia|]. rewrite Bool.orb_false_iff, IH, Z.eqb_neq. rewrite Z.mul_eq_0. tauto.
Qed.
Lemma inj_zprod_nz l : zprodl l <> 0%Z -> ~ inject_Z (zprodl l) == 0.
Proof. intros H E. unfold Qeq, inject_Z in E. cbn in E. lia. Qed.
Lemma product_ome rs : product (map one_minus_exp rs) ~= Nat.iter (length rs) shift (scal (inject_Z (zprodl rs)) (product (map exp_quotient rs))).
Proof.
  induction rs as [|r rs IH]; cbn [map product fold_right length zprodl]; [intros n; unfold scal; cbn [Nat.iter nat_rect]; ring|].
  fold (product (map one_minus_exp rs)) (product (map exp_quotient rs)). intros n.
  rewrite (conv_ext _ _ _ _ (ome_split r) IH n), conv_shift_l. cbn [Nat.iter nat_rect]. apply shift_ext. clear n. intros n. rewrite conv_iter_r. apply iter_shift_ext. clear n. intros n.
  rewrite conv_scal_l. unfold scal at 1. rewrite conv_scal_r. unfold scal. rewrite inject_Z_mult. ring.
Qed.
Lemma product_eq_0 l : ~ product (map exp_quotient l) O == 0.
Proof.
  induction l as [|r l IH]; cbn [map product fold_right]; [cbn; discriminate|]. fold (product (map exp_quotient l)). rewrite conv_0. intros E. apply Qmult_integral in E as [E|E]; auto. unfold exp_quotient in E. cbn in E. discriminate.
Qed.
(** Cancelling a product of the 1 - exp(rt). *)
Lemma cancel_ome rs F G : zprodl rs <> 0%Z -> conv F (product (map one_minus_exp rs)) ~= conv G (product (map one_minus_exp rs)) -> F ~= G.
Proof.
  intros NZ H. apply (conv_cancel (product (map exp_quotient rs))); [apply product_eq_0|].
  assert (K : Nat.iter (length rs) shift (scal (inject_Z (zprodl rs)) (conv F (product (map exp_quotient rs)))) ~= Nat.iter (length rs) shift (scal (inject_Z (zprodl rs)) (conv G (product (map exp_quotient rs))))).
  { assert (X : forall F, Nat.iter (length rs) shift (scal (inject_Z (zprodl rs)) (conv F (product (map exp_quotient rs)))) ~= conv F (product (map one_minus_exp rs))).
    { intros F0 n. rewrite (conv_ext F0 F0 _ _ (fun _ => Qeq_refl _) (product_ome rs) n), conv_iter_r. apply iter_shift_ext. intros m. symmetry. apply conv_scal_r. }
    intros n. now rewrite !X. }
  pose proof (iter_shift_inj _ _ _ K) as K2. clear K. rename K2 into K. intros n. specialize (K n). unfold scal in K. exact (proj1 (Qmult_inj_l _ _ _ (inj_zprod_nz rs NZ)) K).
Qed.
(** The series whose d-th coefficient is the residue. *)
Definition resF (rs ss : list Z) : ser := scal (/ inject_Z (zprodl rs)) (conv (todd_ser rs) (exp_sum ss)).
Lemma resF_ok rs ss : zprodl rs <> 0%Z -> conv (resF rs ss) (product (map one_minus_exp rs)) ~= Nat.iter (length rs) shift (exp_sum ss).
Proof.
  intros NZ n. rewrite (conv_ext _ _ _ _ (fun _ => Qeq_refl _) (product_ome rs) n), conv_iter_r. apply iter_shift_ext. clear n. intros n. unfold resF. rewrite conv_scal_l. unfold scal at 1. rewrite conv_scal_r. unfold scal.
  assert (E : conv (conv (todd_ser rs) (exp_sum ss)) (product (map exp_quotient rs)) ~= exp_sum ss).
  { intros m. rewrite (conv_ext _ _ _ _ (conv_comm (todd_ser rs) (exp_sum ss)) (fun _ => Qeq_refl _) m), conv_assoc, (conv_ext _ _ _ _ (fun _ => Qeq_refl _) (todd_ser_inverse rs) m). apply conv_one_r. }
  rewrite E. field. now apply inj_zprod_nz.
Qed.
Lemma residue_unique rs ss q : zprodl rs <> 0%Z -> exponential_residue rs ss q -> q == resF rs ss (length rs).
Proof.
  intros NZ (F & HF & EQ). rewrite <- EQ. apply (cancel_ome rs); auto. intros n. now rewrite HF, resF_ok.
Qed.
Lemma residue_exists rs ss : zprodl rs <> 0%Z -> exponential_residue rs ss (resF rs ss (length rs)).
Proof. intros NZ. exists (resF rs ss). split; [now apply resF_ok|reflexivity]. Qed.
(** weights *)
Lemma weights_len k : forall i f d T p, length (weights_loop k i f d T p) = k.
Proof. induction k as [|k IH]; intros; cbn [weights_loop length]; auto. Qed.
Lemma weights_nth k : forall i f d T p j, (j < k)%nat -> inject_Z f == qfact i -> p <> 0%Z -> nth j (weights_loop k i f d T p) 0 == nth (d - (i + j)) T 0 / inject_Z p / qfact (i + j).
Proof.
  induction k as [|k IH]; intros i f d T p [|j] H Hf Hp; try lia; cbn [weights_loop nth].
  - rewrite Nat.add_0_r, Hf. reflexivity.
  - rewrite IH; auto; try lia.
    + replace (S i + j)%nat with (i + S j)%nat by lia. reflexivity.
    + rewrite inject_Z_mult, Hf. cbn [qfact]. unfold qn. ring.
Qed.
Lemma weights_ok g rays : zprodl (map (zdot g) rays) <> 0%Z -> exists w, residue_weights g rays = Ok w /\ length w = S (length rays) /\
  forall k, (k <= length rays)%nat -> nth k w 0 == todd_ser (map (zdot g) rays) (length rays - k)%nat / inject_Z (zprodl (map (zdot g) rays)) / qfact k.
Proof.
  intros NZ. unfold residue_weights. rewrite (proj2 (zprodl_nz _) NZ). destruct (evaluate_todd_ok (map (zdot g) rays)) as (T & E & L & N). rewrite E. cbn [bind]. eexists. split; [reflexivity|]. split; [rewrite weights_len; lia|].
  intros k Hk. rewrite map_length in L, N. rewrite weights_nth; try lia; [|reflexivity|rewrite fold_mul; lia]. cbn [Nat.add]. rewrite N by lia. rewrite fold_mul, Z.mul_1_l. reflexivity.
Qed.
Lemma weights_thrown g rays : residue_weights g rays = Err Thrown <-> zprodl (map (zdot g) rays) = 0%Z.
Proof.
  split.
  - intros H. destruct (Z.eq_dec (zprodl (map (zdot g) rays)) 0) as [E|E]; auto. destruct (weights_ok g rays E) as (w & K & _). congruence.
  - intros H. unfold residue_weights. destruct (existsb _ _) eqn:E; auto. apply zprodl_nz in E. contradiction.
Qed.
(** sums of powers *)
Lemma add_powers_len sum : forall i p, length (add_powers sum i p) = length sum.
Proof. induction sum as [|s sum IH]; intros; cbn [add_powers length]; auto. Qed.
Lemma add_powers_nth sum : forall i p k, (k < length sum)%nat -> nth k (add_powers sum i p) 0%Z = (nth k sum 0 + p * i ^ Z.of_nat k)%Z.
Proof.
  induction sum as [|s sum IH]; intros i p [|k] H; cbn [length] in H; try lia; cbn [add_powers nth]; [cbn; lia|]. rewrite IH by lia. rewrite Nat2Z.inj_succ, Z.pow_succ_r by lia. ring.
Qed.
Lemma inj_pow x k : inject_Z (x ^ Z.of_nat k) == inject_Z x ^ Z.of_nat k.
Proof. induction k as [|k IH]; [reflexivity|]. rewrite Qpow_S, <- IH, <- inject_Z_mult. rewrite Nat2Z.inj_succ, Z.pow_succ_r by lia. reflexivity. Qed.
Lemma sums_ok n sps : length (sums_of_powers n sps) = S n /\ forall k, (k <= n)%nat -> inject_Z (nth k (sums_of_powers n sps) 0%Z) == qfact k * exp_sum sps k.
Proof.
  unfold sums_of_powers. assert (G : forall sps sum, length sum = S n -> length (fold_left (fun sum inner => add_powers sum inner 1%Z) sps sum) = S n /\ forall k, (k <= n)%nat -> inject_Z (nth k (fold_left (fun sum inner => add_powers sum inner 1%Z) sps sum) 0%Z) == inject_Z (nth k sum 0%Z) + qfact k * exp_sum sps k).
  { clear sps. induction sps as [|s sps IH]; intros sum L; cbn [fold_left]; [split; auto; intros; unfold exp_sum; cbn [qsum]; ring|]. destruct (IH (add_powers sum s 1%Z)) as [I1 I2]; [now rewrite add_powers_len|]. split; auto. intros k Hk. rewrite I2 by auto. rewrite add_powers_nth by lia. unfold exp_sum. cbn [qsum]. rewrite Z.mul_1_l, inject_Z_plus, inj_pow. unfold sexp at 2. field. apply qfact_nz. }
  destruct (G sps (repeat 0%Z (n + 1))) as [L N]; [rewrite repeat_length; lia|]. split; auto. intros k Hk. rewrite N by auto. rewrite nth_repeat. unfold inject_Z. ring.
Qed.
Lemma single_ok n g c : zprodl (map (zdot g) (e_rays c)) <> 0%Z -> (length (e_rays c) <= n)%nat ->
  exists q, residue_single n g c = Ok q /\ q == inject_Z (e_coef c) * resF (map (zdot g) (e_rays c)) (e_sps c) (length (e_rays c)).
Proof.
  intros NZ Hn. unfold residue_single. destruct (weights_ok g (e_rays c) NZ) as (w & E & Lw & Nw). rewrite E. cbn [bind]. destruct (sums_ok n (e_sps c)) as [Ls Ns]. rewrite Ls, Lw. destruct (S n <? S (length (e_rays c)))%nat eqn:B; [apply Nat.ltb_lt in B; lia|]. eexists. split; [reflexivity|]. apply Qmult_comp; [reflexivity|].
  unfold resF, scal. set (rs := map (zdot g) (e_rays c)) in *. set (d := length (e_rays c)) in *. rewrite (conv_comm _ _ d), conv_sum_to, !sum_to_qsum, <- qsum_scale. apply qsum_ext. intros k Hk. apply in_seq in Hk. rewrite Ns, Nw by lia. field. split; [now apply inj_zprod_nz|apply qfact_nz].
Qed.
