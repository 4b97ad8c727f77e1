(** Todd coefficients and exponential residues. *)
From Coq Require Import QArith Qfield Qpower Lqa.
From Verif Require Import Common IntegSpec IntegMath DecompProofs DecompProofs4 InterpProofs2 Series HermiteProofs Piped Exponential ExpSpec.
Open Scope Q_scope.

Definition ofl (l : list Q) : ser := fun i => nth i l 0.
Lemma sum_to_qsum k f : sum_to k f == qsum f (seq 0 k).
Proof. induction k as [|k IH]; [reflexivity|]. rewrite qsum_seq_S. cbn [sum_to]. now rewrite IH. Qed.
Lemma sum_to_ext k f g : (forall i, (i < k)%nat -> f i == g i) -> sum_to k f == sum_to k g.
Proof. induction k as [|k IH]; intros H; cbn [sum_to]; [reflexivity|]. rewrite IH, H by auto. reflexivity. Qed.
Lemma sum_to_head k f : sum_to (S k) f == f O + sum_to k (fun i => f (S i)).
Proof. rewrite !sum_to_qsum, qsum_seq_head. reflexivity. Qed.
Lemma sum_to_rev k f : sum_to k (fun j => f (k - S j)%nat) == sum_to k f.
Proof.
  induction k as [|k IH]; [reflexivity|]. rewrite sum_to_head. cbn [sum_to]. rewrite <- IH. replace (S k - 1)%nat with k by lia. rewrite Qplus_comm. apply Qplus_comp; [|reflexivity]. apply sum_to_ext. intros i Hi. replace (S k - S (S i))%nat with (k - S i)%nat by lia. reflexivity.
Qed.
Lemma conv_sum_to f g k : conv f g k == sum_to (S k) (fun j => f j * g (k - j)%nat).
Proof. unfold conv. now rewrite sum_to_qsum. Qed.
Lemma Qpow_add a i j : a ^ Z.of_nat (i + j) == a ^ Z.of_nat i * a ^ Z.of_nat j.
Proof. induction i as [|i IH]; [cbn; ring|]. cbn [Nat.add]. rewrite !Qpow_S, IH. ring. Qed.
Lemma conv_dil' c f g : conv (sdil c f) (sdil c g) ~= sdil c (conv f g).
Proof.
  intros n. unfold conv, sdil. rewrite <- qsum_scale. apply qsum_ext. intros i Hi. apply in_seq in Hi. replace n with (i + (n - i))%nat at 3 by lia. rewrite Qpow_add. ring.
Qed.
Lemma sdil_one c : sdil c sone ~= sone.
Proof. intros [|n]; unfold sdil; cbn [sone]; [reflexivity|ring]. Qed.
Lemma sdil_ext c f g : f ~= g -> sdil c f ~= sdil c g.
Proof. intros H n. unfold sdil. now rewrite H. Qed.
(** exp *)
Lemma exp_loop_len k : forall i c, length (exp_loop k i c) = k.
Proof. induction k as [|k IH]; intros i c; cbn [exp_loop length]; auto. Qed.
Lemma exp_loop_nth k : forall i c j, (j < k)%nat -> nth j (exp_loop k i c) 0 == c * qfact i / qfact (i + j).
Proof.
  induction k as [|k IH]; intros i c [|j] H; try lia; cbn [exp_loop nth].
  - rewrite Nat.add_0_r. field. apply qfact_nz.
  - rewrite IH by lia. replace (i + S j)%nat with (S i + j)%nat by lia. cbn [qfact]. change (qnat (S i)) with (qn (S i)). field. split; [apply qfact_nz|apply qn_nz].
Qed.
(** reciprocal *)
Lemma recip_loop_ok a k : ~ nth 0 a 0 == 0 -> forall b, (1 <= length b)%nat -> (forall j, (j < length b)%nat -> nth j b 0 == sinv (ofl a) j) ->
  length (recip_loop k a b) = (length b + k)%nat /\ forall j, (j < length b + k)%nat -> nth j (recip_loop k a b) 0 == sinv (ofl a) j.
Proof.
  intros A0. induction k as [|k IH]; intros b L H; cbn [recip_loop]; [split; [lia|intros; apply H; lia]|].
  destruct (IH (b ++ [recip_next a b])) as [I1 I2].
  - rewrite app_length. cbn [length]. lia.
  - rewrite app_length. cbn [length]. intros j Hj. destruct (Nat.eq_dec j (length b)) as [->|N]; [|rewrite app_nth1 by lia; apply H; lia]. rewrite app_nth2, Nat.sub_diag by lia. cbn [nth]. unfold recip_next.
    destruct (length b) as [|m] eqn:Eb; [lia|]. rewrite sinv_S, <- sum_to_qsum.
    rewrite (sum_to_ext (S m) (fun j => nth (S j) a 0 * nth (S m - S j) b 0) (fun j => (fun i => ofl a (S m - i)%nat * sinv (ofl a) i) (S m - S j)%nat)).
    + rewrite (sum_to_rev (S m) (fun i => ofl a (S m - i)%nat * sinv (ofl a) i)). unfold ofl at 3. field. exact A0.
    + intros i Hi. cbv beta. rewrite H by lia. unfold ofl at 2. replace (S m - (S m - S i))%nat with (S i) by lia. reflexivity.
  - rewrite app_length in *. cbn [length] in *. split; [lia|]. intros j Hj. apply I2. lia.
Qed.
Definition useries : ser := fun k => - (1 / qfact (S k)).
Lemma u_nz : ~ useries O == 0.
Proof. unfold useries. cbn. discriminate. Qed.
Lemma sinv_ext_upto f g n : f O == g O -> (forall i, (i <= n)%nat -> f i == g i) -> forall j, (j <= n)%nat -> sinv f j == sinv g j.
Proof.
  intros E0 H. intros j. induction j as [j IHj] using (well_founded_induction lt_wf). intros Hj. destruct j as [|j]; [rewrite !sinv_0, E0; reflexivity|]. rewrite !sinv_S, E0. apply Qmult_comp; [reflexivity|]. apply qsum_ext. intros i Hi. apply in_seq in Hi. rewrite H by lia. rewrite IHj by lia. reflexivity.
Qed.
Lemma todd_factor_ok d : exists f, taylor_for_todd d = Ok f /\ length f = (d + 1)%nat /\ forall k, (k <= d)%nat -> nth k f 0 == sinv useries k.
Proof.
  unfold taylor_for_todd. set (a := map _ _). assert (La : length a = (d + 1)%nat) by (unfold a; now rewrite map_length, seq_length).
  assert (Na : forall i, (i <= d)%nat -> nth i a 0 == useries i).
  { intros i Hi. unfold a. rewrite nth_map_seq by lia. unfold taylor_exponential. rewrite exp_loop_nth by lia. unfold useries. replace (0 + (i + 1))%nat with (S i) by lia. cbn [qfact]. field. split; [apply qfact_nz|apply qn_nz]. }
  destruct a as [|a0 a'] eqn:Ea; [cbn in La; lia|]. rewrite <- Ea in *. cbn [taylor_reciprocal]. rewrite Ea. cbn [taylor_reciprocal].
  assert (A0 : ~ a0 == 0) by (specialize (Na 0%nat ltac:(lia)); rewrite Ea in Na; cbn [nth] in Na; rewrite Na; apply u_nz).
  destruct (Qeq_bool a0 0) eqn:QB; [apply Qeq_bool_iff in QB; contradiction|]. rewrite <- Ea. eexists. split; [reflexivity|].
  assert (N0 : nth 0 a 0 = a0) by now rewrite Ea.
  destruct (recip_loop_ok a (length a') ltac:(now rewrite N0) [1 / a0]) as [L N].
  - cbn. lia.
  - cbn [length]. intros [|j] Hj; [|lia]. cbn [nth]. rewrite sinv_0. unfold ofl. rewrite N0. field. exact A0.
  - cbn [length] in L, N. assert (La' : length a' = d) by (rewrite Ea in La; cbn [length] in La; lia). split; [rewrite L; lia|]. intros k Hk. rewrite N by lia. apply (sinv_ext_upto (ofl a) useries d); auto. apply Na. lia.
Qed.
(** products *)
Lemma aux_ok a b : length (taylor_product_aux a b) = Nat.min (length a) (length b) /\ forall i, (i < Nat.min (length a) (length b))%nat -> nth i (taylor_product_aux a b) 0 == conv (ofl a) (ofl b) i.
Proof. unfold taylor_product_aux. split; [now rewrite map_length, seq_length|]. intros i Hi. rewrite nth_map_seq by auto. rewrite conv_sum_to. reflexivity. Qed.
Lemma fold_product_ok d l : forall p, length p = (d + 1)%nat -> Forall (fun q => length q = (d + 1)%nat) l ->
  length (fold_left taylor_product_aux l p) = (d + 1)%nat /\ forall k, (k <= d)%nat -> nth k (fold_left taylor_product_aux l p) 0 == conv (ofl p) (product (map ofl l)) k.
Proof.
  induction l as [|q l IH]; intros p Lp Fl; cbn [fold_left map product fold_right].
  - split; auto. intros k Hk. now rewrite conv_one_r.
  - pose proof (Forall_inv Fl) as Lq. pose proof (Forall_inv_tail Fl) as Fl'. cbv beta in Lq. destruct (aux_ok p q) as [LA NA]. rewrite Lp, Lq, Nat.min_id in LA, NA. destruct (IH _ LA Fl') as [L N]. split; auto. intros k Hk. rewrite N by auto. fold (product (map ofl l)).
    rewrite <- (conv_assoc (ofl p) (ofl q) (product (map ofl l)) k). apply conv_ext_upto; [|reflexivity]. intros i Hi. unfold ofl at 1. apply NA. lia.
Qed.
Lemma product_ext2 d {A} (f g : A -> ser) l : (forall a, In a l -> forall k, (k <= d)%nat -> f a k == g a k) -> forall k, (k <= d)%nat -> product (map f l) k == product (map g l) k.
Proof.
  induction l as [|a l IH]; intros H k Hk; cbn [map product fold_right]; [reflexivity|]. fold (product (map f l)) (product (map g l)). apply conv_ext_upto; intros i Hi; [apply H; [now left|lia]|apply IH; [intros b Hb; apply H; now right|lia]].
Qed.
Lemma substitute_len x l : forall c, length (substitute x c l) = length l.
Proof. induction l as [|s l IH]; intros c; cbn [substitute length]; auto. Qed.
Lemma substitute_nth x l : forall c k, nth k (substitute x c l) 0 == inject_Z c * (inject_Z x ^ Z.of_nat k * nth k l 0).
Proof.
  induction l as [|s l IH]; intros c [|k]; cbn [substitute nth]; try (cbn; ring). rewrite IH, Qpow_S, inject_Z_mult. ring.
Qed.
(** The Todd series: the reciprocal of the product of the exponential quotients. *)
Definition todd_ser (xs : list Z) : ser := product (map (fun x => sdil (inject_Z x) (sinv useries)) xs).
Lemma exp_quotient_dil x : exp_quotient x ~= sdil (inject_Z x) useries.
Proof. intros k. unfold exp_quotient, sdil, useries. field. apply qfact_nz. Qed.
Lemma conv_swap4 a b c d : conv (conv a b) (conv c d) ~= conv (conv a c) (conv b d).
Proof.
  intros n. rewrite (conv_assoc a b (conv c d) n), (conv_assoc a c (conv b d) n). apply conv_ext; [reflexivity|]. intros m. rewrite <- (conv_assoc b c d m), <- (conv_assoc c b d m). apply conv_ext; [|reflexivity]. apply conv_comm.
Qed.
Lemma todd_ser_inverse xs : conv (todd_ser xs) (product (map exp_quotient xs)) ~= sone.
Proof.
  unfold todd_ser. induction xs as [|x xs IH]; intros n; cbn [map product fold_right]; [apply conv_one_l|]. fold (product (map (fun x => sdil (inject_Z x) (sinv useries)) xs)) (product (map exp_quotient xs)). rewrite conv_swap4.
  assert (E1 : conv (sdil (inject_Z x) (sinv useries)) (exp_quotient x) ~= sone).
  { intros m. rewrite (conv_ext _ (sdil (inject_Z x) (sinv useries)) _ (sdil (inject_Z x) useries) (fun _ => Qeq_refl _) (exp_quotient_dil x) m), (conv_dil' _ _ _ m), (sdil_ext _ _ _ (conv_inv useries u_nz) m). apply sdil_one. }
  rewrite (conv_ext _ sone _ sone E1 IH n). apply conv_one_l.
Qed.
Lemma evaluate_todd_ok xs : exists T, evaluate_todd xs = Ok T /\ length T = S (length xs) /\ forall k, (k <= length xs)%nat -> nth k T 0 == todd_ser xs k.
Proof.
  unfold evaluate_todd. set (d := length xs). destruct (todd_factor_ok d) as (f & E & Lf & Nf). rewrite E. cbn [bind]. eexists. split; [reflexivity|].
  assert (FS : forall x k, (k <= d)%nat -> ofl (substitute x 1 f) k == sdil (inject_Z x) (sinv useries) k) by (intros x k Hk; unfold ofl, sdil; rewrite substitute_nth, Nf by auto; ring).
  unfold taylor_product, todd_ser. destruct xs as [|x xs]; cbn [map].
  - split; [reflexivity|]. intros k Hk. assert (k = O) as -> by (unfold d in Hk; cbn in Hk; lia). reflexivity.
  - destruct (fold_product_ok d (map (fun xi => substitute xi 1 f) xs) (substitute x 1 f)) as [L N].
    + rewrite substitute_len. lia.
    + apply Forall_forall. intros q Hq. apply in_map_iff in Hq as (y & <- & _). rewrite substitute_len. lia.
    + split; [rewrite L; unfold d; cbn [length]; lia|]. intros k Hk. rewrite N by auto. cbn [product fold_right]. fold (product (map (fun x => sdil (inject_Z x) (sinv useries)) xs)). apply conv_ext_upto; intros i Hi; [apply FS; lia|]. rewrite map_map. apply (product_ext2 d); [|lia]. intros y _ j Hj. now apply FS.
Qed.
