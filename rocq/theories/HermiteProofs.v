From Coq Require Import Permutation.
From Verif Require Import Common ZMat Hermite HermiteSpec.
Open Scope Z_scope.

Lemma mat_row S n m i : is_mat S n m -> (i < n)%nat -> length (nth i S []) = m.
Proof. intros [L F] H. rewrite Forall_forall in F. apply F, nth_In. lia. Qed.
Lemma nth_splice c a b j : (c <= length a)%nat -> nth j (splice c a b) 0 = if (j <? c)%nat then nth j a 0 else nth j b 0.
Proof.
  intros H. unfold splice. assert (L : length (firstn c a) = c) by (rewrite firstn_length; lia). destruct (Nat.ltb_spec j c) as [A|A].
  - rewrite app_nth1 by lia. rewrite <- (firstn_skipn c a) at 2. rewrite app_nth1 by lia. reflexivity.
  - rewrite app_nth2 by lia. rewrite L. rewrite <- (firstn_skipn c b) at 2. destruct (Nat.le_gt_cases c (length b)) as [B|B].
    + rewrite app_nth2; rewrite firstn_length_le by lia; [reflexivity|lia].
    + rewrite !nth_overflow; auto; [rewrite firstn_skipn; lia|rewrite skipn_length; lia].
Qed.
Lemma len_splice c a b : length a = length b -> length (splice c a b) = length a.
Proof. intros H. unfold splice. rewrite app_length, firstn_length, skipn_length. lia. Qed.
Lemma nth_sub_row a t b j : length a = length b -> nth j (sub_row a t b) 0 = nth j a 0 - t * nth j b 0.
Proof. revert b j. induction a as [|x a IH]; intros [|y b] [|j] H; cbn in *; try lia. apply IH. lia. Qed.
Lemma len_sub_row a t b : length a = length b -> length (sub_row a t b) = length a.
Proof. revert b. induction a as [|x a IH]; intros [|y b] H; cbn in *; try lia. rewrite IH; lia. Qed.
Lemma nth_scale s r j : nth j (map (Z.mul s) r) 0 = s * nth j r 0.
Proof. rewrite <- (map_nth (Z.mul s) r 0 j). f_equal. lia. Qed.
Lemma Forall_upd {A} (P : A -> Prop) l i x : Forall P l -> P x -> Forall P (upd l i x).
Proof. intros H. revert i. induction H as [|h t Hh Ht IH]; intros [|i] Hx; cbn; constructor; auto. Qed.
(** ** Exchanging rows *)
Lemma exchange_mat M n w c0 c mc s : is_mat M n w -> (c < n)%nat -> (mc < n)%nat -> is_mat (exchange M c0 c mc s) n w.
Proof.
  intros HM Hc Hm. destruct HM as [L F] eqn:E. unfold exchange. split; [now rewrite !length_upd|].
  pose proof (mat_row M n w c (conj L F) Hc) as A. pose proof (mat_row M n w mc (conj L F) Hm) as B.
  apply Forall_upd; [apply Forall_upd; auto|]; rewrite len_splice; rewrite ?map_length; lia.
Qed.
Lemma ent_exchange M n w c0 c mc s i j : is_mat M n w -> (c < n)%nat -> (mc < n)%nat -> (c0 <= w)%nat -> (i < n)%nat ->
  ent (exchange M c0 c mc s) i j = if (j <? c0)%nat then ent M i j else if (i =? c)%nat then s * ent M mc j else if (i =? mc)%nat then ent M c j else ent M i j.
Proof.
  intros HM Hc Hm H0 Hi. pose proof (mat_row M n w c HM Hc) as A. pose proof (mat_row M n w mc HM Hm) as B. destruct HM as [L F].
  unfold ent, exchange. destruct (Nat.eqb_spec i c) as [->|N1].
  - rewrite nth_upd_eq by (rewrite length_upd; lia). rewrite nth_splice by lia. rewrite nth_scale. reflexivity.
  - rewrite nth_upd_neq by auto. destruct (Nat.eqb_spec i mc) as [->|N2].
    + rewrite nth_upd_eq by lia. rewrite nth_splice by lia. reflexivity.
    + rewrite nth_upd_neq by auto. now destruct (j <? c0)%nat.
Qed.
(** ** Reduction *)
Lemma reduce_S_nth l : forall i0 c rc k, nth k (reduce_S l i0 c rc) [] = if (k <? length l)%nat then
  (if (c <? i0 + k)%nat then splice c (nth k l []) (sub_row (nth k l []) (nth c (nth k l []) 0 / nth c rc 0) rc) else nth k l []) else [].
Proof.
  induction l as [|r l IH]; intros i0 c rc [|k]; cbn [reduce_S nth length]; try reflexivity.
  - rewrite Nat.add_0_r. reflexivity.
  - rewrite IH. replace (S i0 + k)%nat with (i0 + S k)%nat by lia. replace (S k <? S (length l))%nat with (k <? length l)%nat by (apply Bool.eq_iff_eq_true; rewrite !Nat.ltb_lt; lia). reflexivity.
Qed.
Lemma reduce_S_len l i0 c rc : length (reduce_S l i0 c rc) = length l.
Proof. revert i0. induction l as [|r l IH]; intros i0; cbn; auto. Qed.
Lemma reduce_U_len l : forall s i0 c rc uc, length l = length s -> length (reduce_U l s i0 c rc uc) = length l.
Proof. induction l as [|u l IH]; intros [|r s] i0 c rc uc H; cbn in *; try lia. rewrite IH; lia. Qed.
Lemma reduce_U_nth l : forall s i0 c rc uc k, length l = length s -> nth k (reduce_U l s i0 c rc uc) [] = if (k <? length l)%nat then
  (if (c <? i0 + k)%nat then sub_row (nth k l []) (nth c (nth k s []) 0 / nth c rc 0) uc else nth k l []) else [].
Proof.
  induction l as [|u l IH]; intros [|r s] i0 c rc uc [|k] H; cbn [reduce_U nth length] in *; try reflexivity; try lia.
  - rewrite Nat.add_0_r. reflexivity.
  - rewrite IH by lia. replace (S i0 + k)%nat with (i0 + S k)%nat by lia. replace (S k <? S (length l))%nat with (k <? length l)%nat by (apply Bool.eq_iff_eq_true; rewrite !Nat.ltb_lt; lia). reflexivity.
Qed.
Lemma Forall_nth_all {A} (P : A -> Prop) l d : (forall i, (i < length l)%nat -> P (nth i l d)) -> Forall P l.
Proof. intros H. apply Forall_forall. intros x Hx. apply (In_nth _ _ d) in Hx as (i & Hi & <-). auto. Qed.
Lemma reduce_S_mat M n w c : is_mat M n w -> (c < n)%nat -> is_mat (reduce_S M 0 c (nth c M [])) n w.
Proof.
  intros HM Hc. pose proof (mat_row M n w c HM Hc) as A. split; [rewrite reduce_S_len; apply HM|]. apply (Forall_nth_all _ _ []). intros i Hi. rewrite reduce_S_len in Hi.
  destruct HM as [L F] eqn:E. rewrite reduce_S_nth, (proj2 (Nat.ltb_lt _ _)) by lia. pose proof (mat_row M n w i HM ltac:(lia)) as B.
  destruct (c <? 0 + i)%nat; auto. rewrite len_splice; auto. rewrite len_sub_row; lia.
Qed.
Lemma reduce_U_mat M U n w c : is_mat M n w -> is_mat U n n -> (c < n)%nat -> is_mat (reduce_U U M 0 c (nth c M []) (nth c U [])) n n.
Proof.
  intros HM HU Hc. pose proof (mat_row U n n c HU Hc) as A. assert (EL : length U = length M) by (destruct HM, HU; lia). split; [rewrite reduce_U_len by auto; apply HU|]. apply (Forall_nth_all _ _ []). intros i Hi. rewrite reduce_U_len in Hi by auto.
  assert (Hi' : (i < n)%nat) by (destruct HU; lia). rewrite reduce_U_nth, (proj2 (Nat.ltb_lt _ _)) by lia. pose proof (mat_row U n n i HU Hi') as B.
  destruct (c <? 0 + i)%nat; auto. rewrite len_sub_row; lia.
Qed.
(** The multipliers. *)
Definition quo (M : list (list Z)) (c i : nat) : Z := if (c <? i)%nat then ent M i c / ent M c c else 0.
Lemma ent_reduce_S M n w c i j : is_mat M n w -> (c < n)%nat -> (c <= w)%nat -> (i < n)%nat ->
  ent (reduce_S M 0 c (nth c M [])) i j = if (j <? c)%nat then ent M i j else ent M i j - quo M c i * ent M c j.
Proof.
  intros HM Hc Hw Hi. pose proof (mat_row M n w c HM Hc) as A. pose proof (mat_row M n w i HM Hi) as B. unfold ent, quo.
  rewrite reduce_S_nth, (proj2 (Nat.ltb_lt _ _)) by (destruct HM; lia). cbn [Nat.add]. destruct (c <? i)%nat.
  - rewrite nth_splice by lia. destruct (j <? c)%nat; auto. rewrite nth_sub_row by lia. reflexivity.
  - destruct (j <? c)%nat; auto. ring.
Qed.
Lemma ent_reduce_U M U n w c i j : is_mat M n w -> is_mat U n n -> (c < n)%nat -> (i < n)%nat ->
  ent (reduce_U U M 0 c (nth c M []) (nth c U [])) i j = ent U i j - quo M c i * ent U c j.
Proof.
  intros HM HU Hc Hi. pose proof (mat_row U n n c HU Hc) as A. pose proof (mat_row U n n i HU Hi) as B. unfold ent, quo.
  rewrite reduce_U_nth by (destruct HM, HU; lia). rewrite (proj2 (Nat.ltb_lt _ _)) by (destruct HU; lia). cbn [Nat.add]. destruct (c <? i)%nat.
  - rewrite nth_sub_row by lia. reflexivity.
  - ring.
Qed.
(** ** Pivot choice *)
Lemma min_row_ok c L : forall l i mv mc P, L = P ++ l -> length P = i -> (c <= mc < i)%nat -> mv = Z.abs (nth c (nth mc L []) 0) ->
  (forall k, (c <= k < i)%nat -> nth c (nth k L []) 0 <> 0 -> mv <> 0 /\ mv <= Z.abs (nth c (nth k L []) 0)) ->
  let r := min_row l c i mv mc in
  (c <= r < length L)%nat /\ forall k, (c <= k < length L)%nat -> nth c (nth k L []) 0 <> 0 -> nth c (nth r L []) 0 <> 0 /\ Z.abs (nth c (nth r L []) 0) <= Z.abs (nth c (nth k L []) 0).
Proof.
  induction l as [|x l IH]; intros i mv mc P EL LP Hmc Emv H; cbn zeta; cbn [min_row].
  - assert (length L = i) by (rewrite EL, app_nil_r; auto). split; [lia|]. intros k Hk Nk. destruct (H k ltac:(lia) Nk) as [A B]. split; [intros Z0; rewrite Z0 in Emv; cbn in Emv; auto|lia].
  - assert (Ex : nth i L [] = x) by (rewrite EL, app_nth2, LP, Nat.sub_diag by lia; reflexivity).
    assert (EL' : L = (P ++ [x]) ++ l) by (rewrite <- app_assoc; exact EL). assert (LP' : length (P ++ [x]) = S i) by (rewrite app_length; cbn; lia).
    destruct ((mv =? 0) || (Z.abs (nth c x 0) <? mv) && negb (Z.abs (nth c x 0) =? 0)) eqn:E.
    + apply (IH (S i) _ i (P ++ [x])); auto; [lia|now rewrite Ex|]. intros k Hk Nk. destruct (Nat.eq_dec k i) as [->|N]; [rewrite Ex in *; lia|].
      destruct (H k ltac:(lia) Nk) as [A B]. apply orb_prop in E as [E|E]; [apply Z.eqb_eq in E; lia|]. apply andb_prop in E as [E1 E2]. apply Z.ltb_lt in E1. apply negb_true_iff, Z.eqb_neq in E2. lia.
    + apply orb_false_elim in E as [E1 E2]. apply Z.eqb_neq in E1.
      apply (IH (S i) mv mc (P ++ [x])); auto; [lia|]. intros k Hk Nk. destruct (Nat.eq_dec k i) as [->|N]; [|apply H; auto; lia].
      rewrite Ex in *. split; auto. apply andb_false_elim in E2 as [E2|E2]; [apply Z.ltb_ge in E2; lia|apply negb_false_iff, Z.eqb_eq in E2; lia].
Qed.
Lemma pivot_row_ok M n w c : is_mat M n w -> (c < n)%nat ->
  (c <= pivot_row M c < n)%nat /\ forall k, (c <= k < n)%nat -> ent M k c <> 0 -> ent M (pivot_row M c) c <> 0 /\ Z.abs (ent M (pivot_row M c) c) <= Z.abs (ent M k c).
Proof.
  intros [L F] Hc. unfold pivot_row, ent.
  pose proof (min_row_ok c M (skipn (c + 1) M) (c + 1) (Z.abs (nth c (nth c M []) 0)) c (firstn (c + 1) M)) as P. cbn zeta in P. rewrite L in P. apply P.
  - now rewrite firstn_skipn.
  - rewrite firstn_length; lia.
  - lia.
  - reflexivity.
  - intros k Hk Nk. assert (k = c) as -> by lia. lia.
Qed.
Lemma nth_skip {A} c (M : list A) d q : nth q (skipn c M) d = nth (c + q) M d.
Proof. revert M. induction c as [|c IH]; intros [|x M]; cbn [skipn Nat.add nth]; auto. destruct q; reflexivity. Qed.
Lemma In_skip {A} c (M : list A) d i : (c <= i < length M)%nat -> In (nth i M d) (skipn c M).
Proof. intros H. replace i with (c + (i - c))%nat by lia. rewrite <- nth_skip. apply nth_In. rewrite skipn_length. lia. Qed.
Lemma find_col_ok M n w c : forall k i, is_mat M n w -> (c < n)%nat -> (c <= i)%nat -> (i + k = w)%nat ->
  match find_col M c i k with
  | Some j => (i <= j < w)%nat /\ exists r, (c <= r < n)%nat /\ ent M r j <> 0
  | None => forall r j, (c <= r < n)%nat -> (i <= j < w)%nat -> ent M r j = 0
  end.
Proof.
  induction k as [|k IH]; intros i HM Hc Hi E; cbn [find_col]; [intros; lia|].
  destruct (existsb (fun r => negb (nth i r 0 =? 0)) (skipn c M)) eqn:X.
  - split; [lia|]. apply existsb_exists in X as (x & Hx & N). apply (In_nth _ _ []) in Hx as (q & Hq & Ex). rewrite skipn_length in Hq. destruct HM as [L F]. exists (c + q)%nat. split; [lia|].
    unfold ent. rewrite <- nth_skip, Ex. now apply negb_true_iff, Z.eqb_neq in N.
  - specialize (IH (i + 1)%nat HM Hc ltac:(lia) ltac:(lia)). destruct (find_col M c (i + 1) k); [destruct IH as [A B]; split; auto; lia|].
    intros r j Hr Hj. destruct (Nat.eq_dec j i) as [->|N]; [|apply IH; lia]. destruct (Z.eq_dec (ent M r i) 0) as [Z0|NZ]; auto. exfalso.
    assert (existsb (fun r => negb (nth i r 0 =? 0)) (skipn c M) = true); [|congruence]. apply existsb_exists. exists (nth r M []). split; [|now apply negb_true_iff, Z.eqb_neq].
    destruct HM as [L F]. apply In_skip. lia.
Qed.
Lemma cleared_ok M n w c : is_mat M n w -> (c < n)%nat -> (cleared M c = true <-> forall i, (c < i < n)%nat -> ent M i c = 0).
Proof.
  intros [L F] Hc. unfold cleared. rewrite forallb_forall. split.
  - intros H i Hi. apply Z.eqb_eq. apply (H (nth i M [])). apply In_skip. lia.
  - intros H x Hx. apply Z.eqb_eq. apply (In_nth _ _ []) in Hx as (q & Hq & Ex). rewrite skipn_length in Hq. specialize (H (c + 1 + q)%nat ltac:(lia)). unfold ent in H. now rewrite <- nth_skip, Ex in H.
Qed.
(** ** Column exchange *)
Definition tr (i c j : nat) : nat := if (j =? i)%nat then c else if (j =? c)%nat then i else j.
Lemma nth_swap_entries r i c j : (i < length r)%nat -> (c < length r)%nat -> nth j (swap_entries r i c) 0 = nth (tr i c j) r 0.
Proof.
  intros Hi Hc. unfold swap_entries, tr. destruct (Nat.eqb_spec j i) as [->|N1].
  - destruct (Nat.eq_dec i c) as [->|N]; [rewrite nth_upd_eq by (rewrite length_upd; lia); reflexivity|]. rewrite nth_upd_neq by auto. now rewrite nth_upd_eq.
  - destruct (Nat.eqb_spec j c) as [->|N2]; [rewrite nth_upd_eq by (rewrite length_upd; lia); reflexivity|]. now rewrite !nth_upd_neq by auto.
Qed.
Lemma len_swap_entries r i c : length (swap_entries r i c) = length r.
Proof. unfold swap_entries. now rewrite !length_upd. Qed.
Lemma tr_lt i c j m : (i < m)%nat -> (c < m)%nat -> (j < m)%nat -> (tr i c j < m)%nat.
Proof. unfold tr. destruct (j =? i)%nat, (j =? c)%nat; lia. Qed.
Lemma tr_inv i c j : tr i c (tr i c j) = j.
Proof. unfold tr. destruct (Nat.eqb_spec j i) as [->|N1]; [destruct (Nat.eqb_spec c i) as [->|N]; auto; now rewrite Nat.eqb_refl|]. destruct (Nat.eqb_spec j c) as [->|N2]; [now rewrite Nat.eqb_refl|]. now rewrite (proj2 (Nat.eqb_neq _ _) N1), (proj2 (Nat.eqb_neq _ _) N2). Qed.
Lemma nth_map_seq {A} (g : nat -> A) m j d : (j < m)%nat -> nth j (map g (seq 0 m)) d = g j.
Proof. intros H. rewrite (nth_indep _ d (g 0%nat)) by (rewrite map_length, seq_length; lia). rewrite map_nth, seq_nth by lia. reflexivity. Qed.
Lemma perm_tr p m i c : Permutation p (seq 0 m) -> (i < m)%nat -> (c < m)%nat -> Permutation (map (fun j => nth (tr i c j) p 0%nat) (seq 0 m)) (seq 0 m).
Proof.
  intros H Hi Hc. assert (L : length p = m) by (rewrite (Permutation_length H), seq_length; auto).
  assert (T : Permutation (map (tr i c) (seq 0 m)) (seq 0 m)).
  { apply NoDup_Permutation_bis; [|rewrite map_length; lia|].
    - apply FinFun.Injective_map_NoDup; [|apply seq_NoDup]. intros a b E. apply (f_equal (tr i c)) in E. now rewrite !tr_inv in E.
    - intros x Hx. apply in_map_iff in Hx as (y & <- & Hy). apply in_seq in Hy. apply in_seq. pose proof (tr_lt i c y m Hi Hc). lia. }
  rewrite <- (map_map (tr i c) (fun j => nth j p 0%nat)). rewrite T. rewrite <- H at 2. clear - L. subst m.
  assert (E : map (fun j => nth j p 0%nat) (seq 0 (length p)) = p); [|now rewrite E].
  apply (nth_ext _ _ 0%nat 0%nat); [now rewrite map_length, seq_length|]. intros k Hk. rewrite map_length, seq_length in Hk. now rewrite nth_map_seq.
Qed.
