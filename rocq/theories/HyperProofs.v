From Coq Require Import Permutation.
From Verif Require Import Common Text Graph GraphSpec GraphProofs GraphProofs2 GraphProofs3 Hyper HyperSpec.
Open Scope Z_scope.

Notation ones m := (repeat 1 m).
Notation zeros m := (repeat 0 m).

(** All arrangements of m ones and z zeros, in the order of the code. *)
Fixpoint full (m z : nat) : list (list Z) :=
  match m with
  | O => [zeros z]
  | S m' => flat_map (fun s => map (app (zeros s ++ [1])) (full m' (z - s))) (seq 0 (S z))
  end.
Lemma full_head m z : full m z = (ones m ++ zeros z) :: tl (full m z).
Proof.
  revert z. induction m as [|m IH]; intros z; [reflexivity|]. cbn [full seq flat_map repeat app]. rewrite Nat.sub_0_r, (IH z). reflexivity.
Qed.
Lemma full_tail m z : tl (full (S m) z) =
  map (cons 1) (tl (full m z)) ++ flat_map (fun s => map (app (zeros s ++ [1])) (full m (z - s))) (seq 1 z).
Proof.
  cbn [full seq flat_map repeat app]. rewrite Nat.sub_0_r, (full_head m z). reflexivity.
Qed.
Lemma full_nozero m : full m 0 = [ones m].
Proof. induction m as [|m IH]; [reflexivity|]. cbn [full seq flat_map repeat app Nat.sub]. rewrite IH. reflexivity. Qed.

(** ** The loops *)
Lemma upd_app {A} (pre l : list A) x y : upd (pre ++ x :: l) (length pre) y = pre ++ y :: l.
Proof. induction pre as [|a pre IH]; [reflexivity|]. cbn [app length upd]. rewrite IH. reflexivity. Qed.
Lemma put_app pre x l y k : k = length pre -> put (pre ++ x :: l) k y = Ok (pre ++ y :: l).
Proof. intros ->. unfold put. rewrite (proj2 (Nat.ltb_lt _ _)) by (rewrite app_length; cbn [length]; lia). rewrite upd_app. reflexivity. Qed.
Lemma get_app pre x l k : k = length pre -> get (pre ++ x :: l) k = Ok x.
Proof. intros ->. unfold get. rewrite nth_error_app2 by lia. rewrite Nat.sub_diag. reflexivity. Qed.
Lemma put_ones_app : forall m pre l k, k = length pre -> (m <= length l)%nat -> put_ones (pre ++ l) k m = Ok (pre ++ ones m ++ skipn m l).
Proof.
  induction m as [|m IH]; intros pre l k E L; [reflexivity|]. destruct l as [|x l]; [cbn in L; lia|]. cbn [put_ones]. rewrite put_app by exact E. cbn [bind].
  change (pre ++ 1 :: l) with (pre ++ [1] ++ l). rewrite app_assoc. rewrite IH by (rewrite ?app_length; cbn [length] in *; lia).
  cbn [repeat app skipn]. rewrite <- app_assoc. reflexivity.
Qed.
Lemma find_found : forall m pre z x, (m <> 0 -> x = 0)%nat -> (forall k, k = length pre -> (1 <= m + k)%nat -> (1 <= z)%nat ->
  find_last (pre ++ ones m ++ zeros z) k (m + z) (-1) = Ok (Z.of_nat (k + m) - 1)).
Proof.
  intros m. induction m as [|m IH]; intros pre z x Hx k Ek H Hz.
  - destruct z as [|z]; [lia|]. cbn [repeat app Nat.add find_last]. change (-1 =? -1) with true. cbv iota. rewrite get_app by exact Ek. cbn [bind]. change (0 =? 0) with true. cbv iota.
    rewrite Nat.add_0_r. destruct z; cbn [find_last]; [reflexivity|]. rewrite (proj2 (Z.eqb_neq _ _)) by lia. reflexivity.
  - cbn [repeat app Nat.add find_last]. change (-1 =? -1) with true. cbv iota. rewrite get_app by exact Ek. cbn [bind]. change (1 =? 0) with false. cbv iota.
    change (pre ++ 1 :: ones m ++ zeros z) with (pre ++ [1] ++ (ones m ++ zeros z)). rewrite app_assoc.
    rewrite (IH (pre ++ [1]) z 0%nat ltac:(auto) (S k)); [f_equal; lia|rewrite app_length; cbn [length]; lia|lia|exact Hz].
Qed.
Lemma find_not : forall m pre k, k = length pre -> find_last (pre ++ ones m) k m (-1) = Ok (-1).
Proof.
  induction m as [|m IH]; intros pre k E; [reflexivity|]. cbn [repeat find_last]. change (-1 =? -1) with true. cbv iota. rewrite get_app by exact E. cbn [bind]. change (1 =? 0) with false. cbv iota.
  change (pre ++ 1 :: ones m) with (pre ++ [1] ++ ones m). rewrite app_assoc. apply IH. rewrite app_length. cbn [length]. lia.
Qed.
Lemma move_one_ok : forall z pre k, k = length pre ->
  move_one (pre ++ 1 :: zeros z) k z = Ok (map (fun s => pre ++ zeros s ++ 1 :: zeros (z - s)) (seq 1 z)).
Proof.
  induction z as [|z IH]; intros pre k E; [reflexivity|]. cbn [move_one repeat]. rewrite put_app by exact E. cbn [bind].
  change (pre ++ 0 :: 0 :: zeros z) with (pre ++ [0] ++ 0 :: zeros z). rewrite app_assoc. rewrite put_app by (rewrite app_length; cbn [length]; lia). cbn [bind].
  rewrite IH by (rewrite app_length; cbn [length]; lia). cbn [bind seq map]. f_equal. f_equal.
  - rewrite <- app_assoc. cbn [repeat app]. replace (S z - 1)%nat with z by lia. reflexivity.
  - rewrite <- (seq_shift z 1), map_map. apply map_ext. intros s. rewrite <- app_assoc. cbn [app repeat Nat.sub]. reflexivity.
Qed.
Lemma shift_loop_ok rec m' : forall k pre base, base = length pre ->
  (forall t pre', (t < k)%nat -> length pre' = (base + k - t + 1)%nat ->
     rec (pre' ++ ones m' ++ zeros t) (length pre') true = Ok (map (app pre') (full m' t))) ->
  shift_loop rec k (pre ++ ones (S m') ++ zeros k) base (Z.of_nat base + Z.of_nat m') =
  Ok (map (app pre) (flat_map (fun s => map (app (zeros s ++ [1])) (full m' (k - s))) (seq 1 k))).
Proof.
  induction k as [|k IH]; intros pre base E H; [reflexivity|]. cbn [shift_loop].
  change (pre ++ ones (S m') ++ zeros (S k)) with (pre ++ 1 :: (ones m' ++ zeros (S k))). rewrite put_app by exact E. cbn [bind].
  replace (Z.to_nat (Z.of_nat base + Z.of_nat m' + 1 - Z.of_nat base)) with (S m') by lia.
  change (pre ++ 0 :: ones m' ++ zeros (S k)) with (pre ++ [0] ++ (ones m' ++ zeros (S k))). rewrite app_assoc.
  rewrite put_ones_app by (rewrite !app_length, ?repeat_length; cbn [length]; lia). cbn [bind].
  replace (skipn (S m') (ones m' ++ zeros (S k))) with (zeros k).
  2:{ clear. replace (S m') with (m' + 1)%nat by lia. induction m' as [|m' IHm]; [reflexivity|]. exact IHm. }
  set (pre' := (pre ++ [0]) ++ [1]).
  replace ((pre ++ [0]) ++ ones (S m') ++ zeros k) with (pre' ++ ones m' ++ zeros k) by (unfold pre'; rewrite <- !app_assoc; reflexivity).
  assert (Lp : length pre' = S (S base)) by (unfold pre'; rewrite !app_length; cbn [length]; lia).
  rewrite <- Lp at 1. rewrite H by lia. cbn [bind].
  replace (pre' ++ ones m' ++ zeros k) with ((pre ++ [0]) ++ ones (S m') ++ zeros k) by (unfold pre'; rewrite <- !app_assoc; reflexivity).
  replace (Z.of_nat base + Z.of_nat m' + 1) with (Z.of_nat (S base) + Z.of_nat m') by lia.
  rewrite IH.
  - cbn [bind seq flat_map]. f_equal. rewrite map_app. f_equal.
    + rewrite map_map. cbn [Nat.sub]. rewrite Nat.sub_0_r. unfold pre'. apply map_ext. intros v. rewrite <- !app_assoc. reflexivity.
    + rewrite <- (seq_shift k 1). rewrite !flat_map_concat_map, !concat_map, !map_map. f_equal. apply map_ext. intros s. rewrite !map_map. cbn [Nat.sub]. apply map_ext. intros v.
      rewrite <- !app_assoc. reflexivity.
  - rewrite app_length. cbn [length]. lia.
  - intros t q Ht Lq. apply H; lia.
Qed.

Lemma add_points_ok dim : forall m fuel pre z add, (m <= fuel)%nat -> (1 <= m)%nat -> dim = (length pre + m + z)%nat ->
  (add = false -> (1 <= z)%nat \/ m = 1%nat) ->
  add_points fuel dim (pre ++ ones m ++ zeros z) (length pre) add = Ok (map (app pre) (if add then full m z else tl (full m z))).
Proof.
  induction m as [|m IH]; intros fuel pre z add Hf Hm Hd Ha; [lia|]. destruct fuel as [|f]; [lia|]. cbn [add_points].
  set (p := pre ++ ones (S m) ++ zeros z).
  assert (Now : forall l, (if add then [p] else []) ++ map (app pre) (tl (full (S m) z)) = l -> l = map (app pre) (if add then full (S m) z else tl (full (S m) z))).
  { intros l <-. destruct add; [|reflexivity]. rewrite (full_head (S m) z) at 2. reflexivity. }
  destruct (Nat.leb_spec dim (length pre + 1)) as [L|L].
  - assert (m = 0 /\ z = 0)%nat as (->&->) by lia. f_equal. apply Now. rewrite (full_nozero 1). apply app_nil_r.
  - destruct z as [|z].
    + destruct add; [|destruct (Ha eq_refl); lia]. unfold p. rewrite app_nil_r. replace (dim - length pre)%nat with (S m) by lia. rewrite find_not by reflexivity. cbn [bind].
      change (-1 =? -1) with true. cbv iota. rewrite full_nozero. reflexivity.
    + unfold p at 1. replace (dim - length pre)%nat with (S m + S z)%nat by lia. rewrite (find_found (S m) pre (S z) 0%nat ltac:(auto) (length pre) eq_refl) by lia. cbn [bind].
      rewrite (proj2 (Z.eqb_neq _ (-1))) by lia. destruct m as [|m].
      * rewrite (proj2 (Z.eqb_eq _ 0)) by lia. replace (Z.to_nat (Z.of_nat (length pre + 1) - 1)) with (length pre) by lia.
        replace (dim - 1 - length pre)%nat with (S z) by lia. pose proof (move_one_ok (S z) pre _ eq_refl : move_one p (length pre) (S z) = _) as MO. rewrite MO. cbn [bind]. f_equal.
        apply Now. f_equal. rewrite full_tail. cbn [full map app tl].
        generalize (seq 1 (S z)). intros l. induction l as [|s l IHl]; [reflexivity|]. cbn [map flat_map app]. rewrite <- IHl. f_equal. rewrite <- app_assoc. reflexivity.
      * rewrite (proj2 (Z.eqb_neq _ 0)) by lia.
        replace (add_points f dim p (S (length pre)) false) with (Ok (map (app (pre ++ [1])) (tl (full (S m) (S z))))).
        2:{ symmetry. replace (S (length pre)) with (length (pre ++ [1])) by (rewrite app_length; cbn [length]; lia).
            replace p with ((pre ++ [1]) ++ ones (S m) ++ zeros (S z)) by (unfold p; rewrite <- app_assoc; reflexivity).
            apply (IH f (pre ++ [1]) (S z) false); [lia|lia|rewrite app_length; cbn [length]; lia|intros _; left; lia]. }
        cbn [bind]. replace (Z.to_nat (Z.of_nat dim - (Z.of_nat (length pre + S (S m)) - 1) - 1)) with (S z) by lia.
        replace (Z.of_nat (length pre + S (S m)) - 1) with (Z.of_nat (length pre) + Z.of_nat (S m)) by lia.
        assert (SL : shift_loop (add_points f dim) (S z) p (length pre) (Z.of_nat (length pre) + Z.of_nat (S m)) =
          Ok (map (app pre) (flat_map (fun s => map (app (zeros s ++ [1])) (full (S m) (S z - s))) (seq 1 (S z))))).
        2: rewrite SL. 1: apply (shift_loop_ok (add_points f dim) (S m) (S z) pre (length pre) eq_refl).
        2:{ cbn [bind]. f_equal. apply Now. f_equal. rewrite (full_tail (S m)), map_app, map_map. f_equal. apply map_ext. intros v. rewrite <- app_assoc. reflexivity. }
         intros t q Ht Lq. apply (IH f q t true); [lia|lia|lia|discriminate].
Qed.
Lemma all_points_ok n k : (1 <= k <= n)%nat -> all_points n k = Ok (full k (n - k)).
Proof.
  intros H. unfold all_points, starter. etransitivity; [apply (add_points_ok n k (S n) [] (n - k) true); [lia|lia|cbn [length]; lia|discriminate]|].
  f_equal. rewrite <- (map_id (full k (n - k))) at 2. apply map_ext. reflexivity.
Qed.

(** ** The arrangements *)
Lemma sum_app l l' : fold_right Z.add 0 (l ++ l') = fold_right Z.add 0 l + fold_right Z.add 0 l'.
Proof. induction l as [|x l IH]; cbn [app fold_right]; [lia|]. rewrite IH. lia. Qed.
Lemma sum_zeros z : fold_right Z.add 0 (zeros z) = 0.
Proof. induction z; cbn; auto. Qed.
Lemma zero_one_zeros z : zero_one z 0 (zeros z).
Proof. split; [apply repeat_length|]. split; [|apply sum_zeros]. apply Forall_forall. intros x H. apply repeat_spec in H. left; exact H. Qed.
Lemma sum_nonneg v : Forall (fun x => x = 0 \/ x = 1) v -> 0 <= fold_right Z.add 0 v <= Z.of_nat (length v).
Proof. induction 1 as [|x v H F IH]; cbn [fold_right length]; lia. Qed.
Lemma all_zero v : Forall (fun x => x = 0 \/ x = 1) v -> fold_right Z.add 0 v = 0 -> v = zeros (length v).
Proof.
  induction 1 as [|x v H F IH]; intros E; [reflexivity|]. cbn [fold_right] in E. pose proof (sum_nonneg v F). cbn [length repeat].
  assert (x = 0) by lia. subst x. f_equal. apply IH. lia.
Qed.
Lemma first_one v : Forall (fun x => x = 0 \/ x = 1) v -> 0 < fold_right Z.add 0 v -> exists s w, v = zeros s ++ 1 :: w.
Proof.
  induction 1 as [|x v H F IH]; intros E; cbn [fold_right] in E; [lia|]. destruct H as [->| ->].
  - destruct (IH ltac:(lia)) as (s&w&->). exists (S s), w. reflexivity.
  - exists O, v. reflexivity.
Qed.
Lemma full_spec : forall m z v, In v (full m z) <-> zero_one (m + z) m v.
Proof.
  induction m as [|m IH]; intros z v.
  - cbn [full In]. split; [intros [<-|[]]; apply zero_one_zeros|]. intros (L&F&E). left. rewrite (all_zero v F E). rewrite L. reflexivity.
  - cbn [full]. rewrite in_flat_map. split.
    + intros (s&Is&I). apply in_seq in Is. apply in_map_iff in I. destruct I as (w&<-&Iw). apply IH in Iw. destruct Iw as (L&F&E). split; [|split].
      * rewrite !app_length, repeat_length, L. cbn [length]. lia.
      * apply Forall_app. split; [apply Forall_app; split; [apply zero_one_zeros|constructor; [right; reflexivity|constructor]]|exact F].
      * rewrite !sum_app, sum_zeros, E. cbn [fold_right]. lia.
    + intros (L&F&E). destruct (first_one v F) as (s&w&->); [lia|]. rewrite app_length, repeat_length in L. cbn [length] in L. apply Forall_app in F. destruct F as (F1&F2).
      pose proof (Forall_inv_tail F2) as Fw. pose proof (sum_nonneg w Fw) as B. rewrite sum_app, sum_zeros in E. cbn [fold_right] in E.
      exists s. split; [apply in_seq; lia|]. apply in_map_iff. exists w. split; [rewrite <- app_assoc; reflexivity|]. apply IH. split; [lia|]. split; [exact Fw|lia].
Qed.
Lemma first_one_unique s s' w w' : zeros s ++ 1 :: w = zeros s' ++ 1 :: w' -> s = s' /\ w = w'.
Proof.
  revert s'. induction s as [|s IH]; intros [|s'] E; cbn [repeat app] in E; [inversion E; auto|discriminate|discriminate|].
  inversion E as [E1]. destruct (IH s' E1). auto.
Qed.
Lemma full_nodup : forall m z, NoDup (full m z).
Proof.
  induction m as [|m IH]; intros z; [repeat constructor; intros []|]. cbn [full]. apply nodup_flat_map; [apply seq_NoDup| |].
  - intros s _. apply FinFun.Injective_map_NoDup; [|apply IH]. intros v w E. exact (app_inv_head _ _ _ E).
  - intros s s' v _ _ I I'. apply in_map_iff in I, I'. destruct I as (w&<-&_). destruct I' as (w'&E&_). rewrite <- !app_assoc in E. cbn [app] in E.
    destruct (first_one_unique _ _ _ _ E). auto.
Qed.

(** ** Their number *)
Lemma full_pascal m z : length (full (S m) (S z)) = (length (full m (S z)) + length (full (S m) z))%nat.
Proof.
  cbn [full]. change (seq 0 (S (S z))) with (0%nat :: seq 1 (S z)). cbn [flat_map]. rewrite app_length, map_length, Nat.sub_0_r. f_equal.
  rewrite <- (seq_shift (S z) 0). rewrite !flat_map_concat_map, map_map. clear. cbn [Nat.sub].
  generalize (seq 0 (S z)). intros l. induction l as [|s l IH]; [reflexivity|]. cbn [map concat]. rewrite !app_length, !map_length, IH. reflexivity.
Qed.
Lemma falling_shift n : forall k, falling (n + 1) (S k) = (n + 1) * falling n k.
Proof. induction k as [|k IH]; [cbn [falling]; lia|]. change (falling (n + 1) (S (S k))) with (falling (n + 1) (S k) * (n + 1 - Z.of_nat (S k))). rewrite IH. cbn [falling]. nia. Qed.
Lemma falling_pascal n k : falling (n + 1) (S k) = falling n (S k) + Z.of_nat (S k) * falling n k.
Proof. rewrite falling_shift. cbn [falling]. nia. Qed.
Lemma factorial_pos k : 0 < factorial k.
Proof. induction k; cbn [factorial]; nia. Qed.
Lemma falling_self : forall k, falling (Z.of_nat k) k = factorial k.
Proof.
  induction k as [|k IH]; [reflexivity|]. replace (Z.of_nat (S k)) with (Z.of_nat k + 1) by lia. rewrite falling_shift, IH. cbn [factorial]. lia.
Qed.
Lemma full_count : forall m z, Z.of_nat (length (full m z)) * factorial m = falling (Z.of_nat (m + z)) m.
Proof.
  induction m as [|m IHm]; intros z; [reflexivity|]. induction z as [|z IHz].
  - rewrite full_nozero, Nat.add_0_r, falling_self. cbn [length]. lia.
  - rewrite full_pascal. replace (Z.of_nat (S m + S z)) with (Z.of_nat (S m + z) + 1) by lia. rewrite falling_pascal, <- IHz.
    specialize (IHm (S z)). replace (S m + z)%nat with (m + S z)%nat by lia. rewrite <- IHm. cbn [factorial]. lia.
Qed.
Lemma nchoosek_ok n k : (k <= n)%nat -> Z.of_nat (length (full k (n - k))) <= 2147483647 -> nchoosek n k = Ok (Z.of_nat (length (full k (n - k)))).
Proof.
  intros H B. unfold nchoosek. rewrite (proj2 (Nat.ltb_ge n k) H). replace (Z.of_nat n) with (Z.of_nat (k + (n - k))) by lia. rewrite <- full_count.
  pose proof (factorial_pos k) as P. 
  assert (G : forall c, Z.gcd (c * factorial k) (factorial k) = factorial k) by (intros c; rewrite Z.gcd_comm, Z.mul_comm; apply Z.gcd_mul_diag_l; lia).
  cbv zeta. rewrite G, Z.div_mul by lia. rewrite int_ok by lia. reflexivity.
Qed.
