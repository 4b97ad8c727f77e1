From Coq Require Import QArith Qfield Permutation.
From Verif Require Import Common Rational RationalSpec RationalProofs Trie TrieSpec TrieProofs TrieProofs2 Integ IntegSpec IntegMath.
Open Scope Z_scope.

(** ** Powers *)
Fixpoint bval (l : list Z) : Z := match l with [] => 0 | d :: l' => d + 2 * bval l' end.
Lemma bits_ok : forall fuel b, 0 < b < 2 ^ Z.of_nat fuel ->
  exists l, bits fuel b = Ok l /\ l <> [] /\ last l 0 = 1 /\ Forall (fun d => d = 0 \/ d = 1) l /\ bval l = b.
Proof.
  induction fuel as [|fuel IH]; intros b H; [cbn in H; lia|].
  rewrite Nat2Z.inj_succ, Z.pow_succ_r in H by lia. cbn [bits]. destruct (Z.leb_spec b 0); [lia|].
  pose proof (Z.mod_pos_bound b 2 ltac:(lia)) as MB. pose proof (Z.div_mod b 2 ltac:(lia)) as DM.
  destruct (Z.eq_dec b 1) as [->|Hb].
  - replace (bits fuel (1 / 2)) with (@Ok (list Z) []) by (destruct fuel; reflexivity). cbn [bind].
    exists [1 mod 2]. split; [reflexivity|]. cbn. repeat split; auto. discriminate.
  - destruct (IH (b / 2)) as (l & E & N & L & F & V).
    { split; [apply Z.div_str_pos; lia|apply Z.div_lt_upper_bound; lia]. }
    rewrite E. cbn [bind]. exists (b mod 2 :: l). split; [reflexivity|]. split; [discriminate|].
    split; [destruct l; [congruence|exact L]|]. split; [constructor; [lia|exact F]|]. cbn [bval]. lia.
Qed.
Lemma fold_bits a : forall l, l <> [] -> last l 0 = 1 -> Forall (fun d => d = 0 \/ d = 1) l ->
  0 < bval l /\ fold_right (fun bit t => if bit =? 1 then t * t * a else t * t) a (removelast l) = a ^ bval l.
Proof.
  induction l as [|d l IH]; intros N L F; [congruence|]. destruct l as [|e l].
  - cbn in *. subst d. split; [lia|]. rewrite Z.pow_1_r. reflexivity.
  - destruct (IH ltac:(discriminate) L (Forall_inv_tail F)) as [P E]. pose proof (Forall_inv F) as Hd. cbv beta in Hd.
    change (removelast (d :: e :: l)) with (d :: removelast (e :: l)). cbn [fold_right]. rewrite E.
    change (bval (d :: e :: l)) with (d + 2 * bval (e :: l)). split; [lia|].
    destruct Hd as [->| ->].
    + change (0 =? 1) with false. cbv iota. replace (0 + 2 * bval (e :: l)) with (bval (e :: l) * 2) by lia. rewrite Z.pow_mul_r, Z.pow_2_r by lia. reflexivity.
    + change (1 =? 1) with true. cbv iota. rewrite Z.pow_add_r by lia. replace (2 * bval (e :: l)) with (bval (e :: l) * 2) by lia. rewrite (Z.pow_mul_r a (bval (e :: l)) 2), Z.pow_2_r by lia. rewrite (Z.pow_1_r a). ring.
Qed.
Lemma power_ZZ_ok a b : 0 <= b < 2 ^ 20 -> power_ZZ a b = Ok (a ^ b).
Proof.
  intros H. unfold power_ZZ. destruct (Z.eqb_spec b 0) as [->|Hb]; [reflexivity|].
  destruct (bits_ok 20 b) as (l & E & N & L & F & V); [cbn [Z.of_nat Pos.of_succ_nat Pos.succ]; lia|].
  rewrite E. cbn [bind]. destruct (fold_bits a l N L F) as [_ ->]. now rewrite V.
Qed.
Lemma bits_overflow : forall fuel b, 2 ^ Z.of_nat fuel <= b -> bits fuel b = Err OutOfBounds.
Proof.
  induction fuel as [|fuel IH]; intros b H.
  - cbn in *. destruct (Z.leb_spec b 0); [lia|reflexivity].
  - rewrite Nat2Z.inj_succ, Z.pow_succ_r in H by lia. cbn [bits]. assert (0 < 2 ^ Z.of_nat fuel) by (apply Z.pow_pos_nonneg; lia).
    destruct (Z.leb_spec b 0); [lia|]. rewrite IH; [reflexivity|]. apply Z.div_le_lower_bound; lia.
Qed.
Lemma power_ZZ_overflow a b : 2 ^ 20 <= b -> power_ZZ a b = Err OutOfBounds.
Proof.
  intros H. unfold power_ZZ. destruct (Z.eqb_spec b 0) as [->|Hb]; [lia|]. now rewrite bits_overflow.
Qed.

(** ** Binomial coefficients *)
Lemma binom_0 n : binom n 0 = 1. Proof. destruct n; reflexivity. Qed.
Lemma binom_out n : forall k, (n < k)%nat -> binom n k = 0.
Proof. induction n as [|n IH]; intros [|k] H; try lia; auto. cbn [binom]. rewrite !IH by lia. reflexivity. Qed.
Lemma binom_diag n : binom n n = 1.
Proof. induction n as [|n IH]; auto. cbn [binom]. rewrite IH, binom_out by lia. reflexivity. Qed.
Lemma binom_absorb n : forall k, Z.of_nat (S k) * binom n (S k) = (Z.of_nat n - Z.of_nat k) * binom n k.
Proof.
  induction n as [|n IH]; intros k.
  - destruct k; [reflexivity|]. cbn [binom]. lia.
  - cbn [binom]. destruct k as [|k].
    + rewrite binom_0. specialize (IH O). rewrite binom_0 in IH. nia.
    + pose proof (IH k) as I1. pose proof (IH (S k)) as I2. cbn [binom]. rewrite !Nat2Z.inj_succ in *. nia.
Qed.
Lemma binom_sym n : forall k, (k <= n)%nat -> binom n k = binom n (n - k).
Proof.
  induction n as [|n IH]; intros k H.
  - destruct k; [reflexivity|lia].
  - destruct k as [|k]; [rewrite Nat.sub_0_r, binom_0, binom_diag; reflexivity|].
    cbn [Nat.sub]. destruct (Nat.eq_dec k n) as [->|Hk].
    + rewrite Nat.sub_diag, binom_0, binom_diag. reflexivity.
    + cbn [binom]. rewrite (IH k), (IH (S k)) by lia. destruct (n - k)%nat as [|j] eqn:E; [lia|].
      cbn [binom]. replace (n - S k)%nat with j by lia. ring.
Qed.
Lemma choose_loop_ok a : forall n i, (0 < i)%nat -> (i - 1 + n <= a)%nat ->
  choose_loop n (Z.of_nat i) (Z.of_nat a) (binom a (i - 1)) = binom a (i - 1 + n).
Proof.
  induction n as [|n IH]; intros i Hi Ha; cbn [choose_loop]; [f_equal; lia|].
  replace (binom a (i - 1) * (Z.of_nat a - Z.of_nat i + 1) / Z.of_nat i) with (binom a (S i - 1)).
  - replace (Z.of_nat i + 1) with (Z.of_nat (S i)) by lia. rewrite IH by lia. f_equal. lia.
  - pose proof (binom_absorb a (i - 1)) as B. replace (S (i - 1)) with i in B by lia. replace (S i - 1)%nat with i by lia.
    replace (binom a (i - 1) * (Z.of_nat a - Z.of_nat i + 1)) with (binom a i * Z.of_nat i).
    + rewrite Z.div_mul by lia. reflexivity.
    + rewrite Nat2Z.inj_sub in B by lia. lia.
Qed.
Lemma choose_ok a b : choose (Z.of_nat a) (Z.of_nat b) = binom a b.
Proof.
  unfold choose. destruct (Z.ltb_spec (Z.of_nat a) (Z.of_nat b)); [rewrite binom_out by lia; reflexivity|].
  cbv zeta. destruct (Z.ltb_spec (Z.of_nat a) (2 * Z.of_nat b)) as [H1|H1].
  - replace (Z.to_nat (Z.of_nat a - Z.of_nat b)) with (a - b)%nat by lia.
    pose proof (choose_loop_ok a (a - b) 1 ltac:(lia) ltac:(lia)) as E. cbn [Nat.sub Z.of_nat Pos.of_succ_nat] in E. rewrite binom_0 in E.
    rewrite E, (binom_sym a b) by lia. f_equal; lia.
  - rewrite Nat2Z.id. pose proof (choose_loop_ok a b 1 ltac:(lia) ltac:(lia)) as E. cbn [Nat.sub Z.of_nat Pos.of_succ_nat] in E. rewrite binom_0 in E.
    exact E.
Qed.

(** ** tally *)
Lemma eqb_sym_false x y : x <> y -> (x =? y) = false. Proof. apply Z.eqb_neq. Qed.
(** the multiset a tally stands for *)
Definition expand (l : list (Z * Z)) : list Z := flat_map (fun p => repeat (fst p) (Z.to_nat (snd p))) l.
Definition cnt_ok (P : Z -> Prop) (p : Z * Z) := 0 <= snd p /\ (P (fst p) \/ 0 < snd p).
Lemma bump_ok P x : forall l, Forall (cnt_ok P) l ->
  match bump x l with
  | Some l' => In x (map fst l) /\ map fst l' = map fst l /\ Forall (cnt_ok P) l' /\ Permutation (expand l') (x :: expand l)
  | None => ~ In x (map fst l)
  end.
Proof.
  induction l as [|[y n] l IH]; intros H; cbn [bump map]; [cbn; auto|].
  destruct (Z.eqb_spec x y) as [->|Hne].
  - pose proof (Forall_inv H) as [Hn Hp]. cbn in Hn, Hp.
    cbn [fst map]. split; [now left|]. split; [reflexivity|]. split.
    { constructor; [split; cbn; [lia|right; lia]|exact (Forall_inv_tail H)]. }
    unfold expand. cbn [flat_map fst snd]. replace (Z.to_nat (n + 1)) with (S (Z.to_nat n)) by lia. cbn [repeat]. apply Permutation_refl.
  - specialize (IH (Forall_inv_tail H)). destruct (bump x l) as [l'|].
    + destruct IH as (A & B & C & Q). cbn [map fst]. split; [now right|]. split; [now f_equal|].
      split; [constructor; [exact (Forall_inv H)|exact C]|]. unfold expand in *. cbn [flat_map fst snd].
      eapply perm_trans; [apply Permutation_app_head, Q|]. apply Permutation_sym, Permutation_middle.
    + cbn [fst]. intros [E|E]; [congruence|tauto].
Qed.
Lemma tally_ok P d : forall diffs l, NoDup (map fst l) -> Forall (cnt_ok P) l ->
  (length (nodup Z.eq_dec (diffs ++ map fst l)) <= d)%nat ->
  exists l', tally d diffs l = Ok l' /\ NoDup (map fst l') /\ Forall (cnt_ok P) l' /\
    Permutation (expand l') (diffs ++ expand l) /\ (exists r, map fst l' = map fst l ++ r).
Proof.
  induction diffs as [|x diffs IH]; intros l ND NN HD.
  - exists l. cbn [tally app]. split; auto. split; auto. split; auto. split; auto. exists []; now rewrite app_nil_r.
  - cbn [tally]. pose proof (bump_ok P x l NN) as B. destruct (bump x l) as [l1|].
    + destruct B as (Bi & B1 & B2 & B3). destruct (IH l1) as (l' & E & A1 & A2 & A3 & (r & A4)).
      * now rewrite B1.
      * exact B2.
      * rewrite B1. cbn [app nodup] in HD. destruct (in_dec Z.eq_dec x (diffs ++ map fst l)) as [_|N]; [exact HD|]. exfalso; apply N, in_app_iff. now right.
      * exists l'. split; auto. split; auto. split; auto. split.
        { eapply perm_trans; [exact A3|]. eapply perm_trans; [apply Permutation_app_head, B3|]. cbn [app]. apply Permutation_sym, Permutation_middle. }
        exists r. now rewrite A4, B1.
    + assert (LT : (length l < d)%nat).
      { assert (ND2 : NoDup (x :: map fst l)) by (constructor; auto).
        assert (I : incl (x :: map fst l) (nodup Z.eq_dec ((x :: diffs) ++ map fst l))).
        { intros y Hy. apply nodup_In. cbn in Hy |- *. destruct Hy as [->|Hy]; [now left|right; apply in_app_iff; now right]. }
        pose proof (NoDup_incl_length ND2 I) as L. cbn [length] in L. rewrite map_length in L. lia. }
      destruct (Nat.ltb_spec (length l) d); [|lia].
      destruct (IH (l ++ [(x, 1)])) as (l' & E & A1 & A2 & A3 & (r & A4)).
      * rewrite map_app. cbn. apply (Permutation_NoDup (l := x :: map fst l)); [apply Permutation_cons_append|constructor; auto].
      * apply Forall_app. split; auto. constructor; [|constructor]. split; cbn; [lia|right; lia].
      * rewrite map_app. cbn [map fst]. eapply Nat.le_trans; [|exact HD]. apply NoDup_incl_length; [apply NoDup_nodup|].
        intros y Hy. apply nodup_In in Hy. apply nodup_In. cbn. rewrite in_app_iff in *. rewrite in_app_iff in Hy. cbn in Hy. tauto.
      * exists l'. split; auto. split; auto. split; auto. split.
        { eapply perm_trans; [exact A3|]. unfold expand. rewrite flat_map_app. cbn [flat_map fst snd app]. change (Z.to_nat 1) with 1%nat. cbn [repeat app].
          rewrite app_assoc. apply Permutation_sym. apply Permutation_cons_append. }
        exists (x :: r). rewrite A4, map_app, <- app_assoc. reflexivity.
Qed.
