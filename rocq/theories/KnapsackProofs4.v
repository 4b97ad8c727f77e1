From Coq Require Import QArith Permutation Sorted Znumtheory.
From Verif Require Import Common IntegSpec IntegProofs Knapsack KnapsackSpec KnapsackProofs KnapsackProofs2 KnapsackProofs3.
Open Scope Z_scope.
Ltac blia := cbn beta in *; lia.

Lemma in_heads t t' : forall c a, In t (heads a c t') <-> exists h, t = h :: t' /\ a <= h < a + Z.of_nat c.
Proof.
  induction c as [|c IH]; intros a; cbn [heads]; [split; [intros []|intros (h & _ & H); blia]|]. split.
  - intros [<-|K]; [exists a; split; auto; blia|]. apply IH in K as (h & E & R). exists h. split; auto. blia.
  - intros (h & -> & R). destruct (Z.eq_dec h a) as [->|N]; [now left|right]. apply IH. exists h. split; auto. blia.
Qed.
Lemma heads_len t : forall c a, length (heads a c t) = c.
Proof. induction c as [|c IH]; intros a; cbn; auto. Qed.
Lemma enum_low : forall k n t, In t (enum n k) -> 0 <= hd0 t.
Proof.
  induction k as [|k IH]; intros n t H; cbn [enum] in H; [destruct H as [<-|[]]; cbn; blia|].
  apply in_flat_map in H as (t' & H & H'). apply in_heads in H' as (h & -> & R). specialize (IH _ _ H). cbn. blia.
Qed.
Lemma enum_high : forall k n t, In t (enum n k) -> hd0 t <= Z.max n 0.
Proof.
  destruct k as [|k]; intros n t H; cbn [enum] in H; [destruct H as [<-|[]]; cbn; blia|].
  apply in_flat_map in H as (t' & H & H'). apply in_heads in H' as (h & -> & R). apply enum_low in H. cbn. blia.
Qed.
Lemma enum_nonpos k n : n <= 0 -> enum n (S k) = [].
Proof.
  intros H. cbn [enum]. assert (A : forall l, (forall t, In t l -> 0 <= hd0 t) -> flat_map (fun t => heads (hd0 t + 1) (Z.to_nat (n - hd0 t)) t) l = []).
  { induction l as [|t l IH]; intros F; auto. cbn [flat_map]. rewrite IH by (intros; apply F; now right). specialize (F t (or_introl eq_refl)). replace (Z.to_nat (n - hd0 t)) with O by blia. reflexivity. }
  apply A. intros t Ht. now apply enum_low in Ht.
Qed.
Lemma filter_heads m t : forall c a, a + Z.of_nat c - 1 = m + 1 -> (0 < c)%nat -> filter (fun t => hd0 t <=? m) (heads a c t) = heads a (c - 1) t.
Proof.
  induction c as [|c IH]; intros a H Hc; [blia|]. cbn [heads filter hd0 hd]. destruct c as [|c].
  - unfold hd0; cbn [hd]. destruct (Z.leb_spec a m); [blia|]. reflexivity.
  - unfold hd0 at 1; cbn [hd]. destruct (Z.leb_spec a m); [|blia]. rewrite IH by blia. cbn [Nat.sub heads]. rewrite Nat.sub_0_r. reflexivity.
Qed.
Lemma filter_flat {A B} (f : B -> bool) (h : A -> list B) l : filter f (flat_map h l) = flat_map (fun a => filter f (h a)) l.
Proof. induction l as [|a l IH]; cbn; auto. now rewrite filter_app, IH. Qed.
Lemma flat_filter {A B} (f : A -> bool) (h : A -> list B) l : (forall a, In a l -> f a = false -> h a = []) -> flat_map h l = flat_map h (filter f l).
Proof. induction l as [|a l IH]; intros H; cbn; auto. rewrite IH by (intros; apply H; auto; now right). destruct (f a) eqn:E; auto. now rewrite (H a (or_introl eq_refl) E). Qed.
Lemma flat_ext {A B} (h h' : A -> list B) l : (forall a, In a l -> h a = h' a) -> flat_map h l = flat_map h' l.
Proof. induction l as [|a l IH]; intros H; cbn; auto. rewrite H by now left. f_equal. apply IH. intros; apply H; now right. Qed.
Lemma filter_enum : forall k n, 1 <= n -> filter (fun t => hd0 t <=? n - 1) (enum n k) = enum (n - 1) k.
Proof.
  induction k as [|k IH]; intros n H; cbn [enum].
  - cbn. destruct (Z.leb_spec 0 (n - 1)); [reflexivity|blia].
  - rewrite filter_flat.
    rewrite (flat_ext _ (fun t => heads (hd0 t + 1) (Z.to_nat (n - 1 - hd0 t)) t)).
    + destruct (Z.eq_dec n 1) as [->|N].
      * change (1 - 1) with 0. fold (enum 0 (S k)). change (enum 0 (S k)) with (enum 0 (S k)).
        transitivity (@nil (list Z)).
        -- assert (A : forall l, (forall t, In t l -> 0 <= hd0 t) -> flat_map (fun t => heads (hd0 t + 1) (Z.to_nat (0 - hd0 t)) t) l = []).
           { induction l as [|t l IHl]; intros F; auto. cbn [flat_map]. rewrite IHl by (intros; apply F; now right). specialize (F t (or_introl eq_refl)). replace (Z.to_nat (0 - hd0 t)) with O by blia. reflexivity. }
           apply A. intros t Ht. now apply enum_low in Ht.
        -- symmetry. exact (enum_nonpos k 0 ltac:(blia)).
      * rewrite (flat_filter (fun t => hd0 t <=? n - 1 - 1)); [now rewrite IH by blia|].
        intros t Ht L. apply Z.leb_gt in L. replace (Z.to_nat (n - 1 - hd0 t)) with O by blia. reflexivity.
    + intros t Ht. pose proof (enum_low _ _ _ Ht). pose proof (enum_high _ _ _ Ht). rewrite filter_heads by blia. f_equal. blia.
Qed.
Definition tot (n : Z) (l : list (list Z)) : Z := fold_right Z.add 0 (map (fun t => n - hd0 t) l).
Lemma enum_length_S k n : 0 <= n -> Z.of_nat (length (enum n (S k))) = tot n (enum (n - 1) k) .
Proof.
  intros Hn. cbn [enum]. unfold tot.
  assert (A : forall l, (forall t, In t l -> hd0 t <= n) -> Z.of_nat (length (flat_map (fun t => heads (hd0 t + 1) (Z.to_nat (n - hd0 t)) t) l)) = fold_right Z.add 0 (map (fun t => n - hd0 t) l)).
  { induction l as [|t l IH]; intros F; cbn [flat_map map fold_right]; auto. rewrite app_length, Nat2Z.inj_add, IH by (intros; apply F; now right). rewrite heads_len. specialize (F t (or_introl eq_refl)). blia. }
  apply A. intros t Ht. apply enum_high in Ht. blia.
Qed.
Lemma tot_filter n l : (forall t, In t l -> hd0 t <= n) -> tot n l = tot n (filter (fun t => hd0 t <=? n - 1) l).
Proof.
  unfold tot. induction l as [|t l IH]; intros F; auto. cbn [map fold_right filter]. rewrite IH by (intros; apply F; now right). specialize (F t (or_introl eq_refl)). destruct (Z.leb_spec (hd0 t) (n - 1)); cbn [map fold_right]; blia.
Qed.
Lemma tot_succ n l : tot (n + 1) l = tot n l + Z.of_nat (length l).
Proof. unfold tot. induction l as [|t l IH]; cbn [map fold_right length]; blia. Qed.
Lemma enum_length : forall n k, Z.of_nat (length (enum (Z.of_nat n) k)) = binom n k.
Proof.
  induction n as [|n IH]; intros [|k]; auto.
  - rewrite enum_nonpos by blia. reflexivity.
  - rewrite enum_length_S by blia. cbn [binom]. rewrite <- !IH. rewrite Nat2Z.inj_succ. unfold Z.succ. rewrite Z.add_simpl_r, tot_succ.
    rewrite tot_filter by (intros t Ht; apply enum_high in Ht; blia). destruct n as [|n].
    + rewrite enum_nonpos with (n := Z.of_nat 0) by (cbn; blia). cbn [length]. destruct k as [|k]; [reflexivity|]. rewrite enum_nonpos by (cbn; blia). reflexivity.
    + rewrite filter_enum by blia. rewrite <- enum_length_S by blia. blia.
Qed.
(** Members *)
Definition desc (n : Z) (t : list Z) : Prop := StronglySorted (fun a b => b < a) t /\ Forall (fun i => 1 <= i <= n) t.
Lemma desc_hd n t : desc n t -> 0 <= hd0 t /\ (forall i, In i t -> i <= hd0 t).
Proof.
  intros [S F]. destruct t as [|h t]; cbn; [split; [blia|intros i []]|]. pose proof (Forall_inv F) as Fh. cbn beta in Fh. unfold hd0; cbn [hd]. apply StronglySorted_inv in S as [_ S]. rewrite Forall_forall in S. split; [blia|]. intros i [<-|Hi]; [blia|]. specialize (S i Hi). cbn beta in S. blia.
Qed.
Lemma in_enum : forall k n t, In t (enum n k) <-> length t = k /\ desc n t.
Proof.
  induction k as [|k IH]; intros n t; cbn [enum].
  - split; [intros [<-|[]]; split; auto; split; constructor|]. intros [L _]. destruct t; [now left|discriminate].
  - rewrite in_flat_map. split.
    + intros (t' & H & H'). apply in_heads in H' as (h & -> & R). apply IH in H as [L D]. destruct (desc_hd _ _ D) as [B0 B]. destruct D as [S F]. cbn [length]. split; [auto|]. rewrite Forall_forall in F. split.
      * constructor; auto. apply Forall_forall. intros i Hi. specialize (B i Hi). blia.
      * constructor; [blia|]. apply Forall_forall. intros i Hi. specialize (F i Hi). blia.
    + intros [L [S F]]. destruct t as [|h t]; [discriminate|]. apply StronglySorted_inv in S as [S S']. pose proof (Forall_inv F) as Fh. apply Forall_inv_tail in F. rewrite Forall_forall in F, S'.
      assert (D : desc (n - 1) t). { split; auto. apply Forall_forall. intros i Hi. specialize (F i Hi). specialize (S' i Hi). blia. }
      exists t. split; [apply IH; split; auto|]. apply in_heads. exists h. split; auto. destruct (desc_hd _ _ D) as [B0 B]. split; [|blia].
      destruct t as [|h2 t]; [cbn; blia|]. specialize (S' h2 (or_introl eq_refl)). cbn. blia.
Qed.
Lemma select_sublist : forall alpha S, sublist S alpha <-> exists t, desc (Z.of_nat (length alpha)) t /\ select alpha t = rev S.
Proof.
  induction alpha as [|a alpha IH] using rev_ind; intros S.
  - split.
    + intros H. inversion H; subst. exists []. split; [split; constructor|reflexivity].
    + intros (t & [_ F] & E). destruct t as [|i t]; [|pose proof (Forall_inv F); cbn in *; blia]. destruct S as [|s S]; [constructor|]. apply (f_equal (@length Z)) in E. rewrite rev_length in E. discriminate.
  - rewrite sublist_app_one, app_length. cbn [length]. rewrite Nat2Z.inj_add. change (Z.of_nat 1) with 1.
    assert (SEL : forall t, Forall (fun i => 1 <= i <= Z.of_nat (length alpha)) t -> select (alpha ++ [a]) t = select alpha t).
    { intros t F. unfold select. apply map_ext_in. intros i Hi. rewrite Forall_forall in F. specialize (F i Hi). apply app_nth1. blia. }
    split.
    + intros [H|(T & -> & H)].
      * apply IH in H as (t & [D F] & E). exists t. split; [|now rewrite SEL]. split; auto. eapply Forall_impl; [|exact F]. cbn. intros; blia.
      * apply IH in H as (t & [D F] & E). exists (Z.of_nat (length alpha) + 1 :: t). split.
        -- split; [constructor; auto; eapply Forall_impl; [|exact F]; cbn; intros; blia|]. constructor; [blia|]. eapply Forall_impl; [|exact F]. cbn; intros; blia.
        -- rewrite rev_unit. change (select (alpha ++ [a]) (Z.of_nat (length alpha) + 1 :: t)) with (nth (Z.to_nat (Z.of_nat (length alpha) + 1 - 1)) (alpha ++ [a]) 0 :: select (alpha ++ [a]) t). rewrite SEL, E by auto. f_equal.
           replace (Z.to_nat (Z.of_nat (length alpha) + 1 - 1)) with (length alpha) by blia. rewrite app_nth2, Nat.sub_diag by blia. reflexivity.
    + intros (t & [D F] & E). destruct (Z.eq_dec (hd0 t) (Z.of_nat (length alpha) + 1)) as [Eh|Nh].
      * destruct t as [|h t]; [cbn in Eh; blia|]. cbn in Eh. subst h. right. apply StronglySorted_inv in D as [D D']. pose proof (Forall_inv_tail F) as F'.
        assert (Ft : Forall (fun i => 1 <= i <= Z.of_nat (length alpha)) t) by (rewrite Forall_forall in *; intros i Hi; specialize (D' i Hi); specialize (F' i Hi); blia).
        change (select (alpha ++ [a]) (Z.of_nat (length alpha) + 1 :: t)) with (nth (Z.to_nat (Z.of_nat (length alpha) + 1 - 1)) (alpha ++ [a]) 0 :: select (alpha ++ [a]) t) in E. rewrite SEL in E by auto.
        replace (Z.to_nat (Z.of_nat (length alpha) + 1 - 1)) with (length alpha) in E by blia. rewrite app_nth2, Nat.sub_diag in E by blia. cbn [nth] in E.
        exists (rev (select alpha t)). split; [apply (f_equal (@rev Z)) in E; rewrite rev_involutive in E; rewrite <- E; reflexivity|]. apply IH. exists t. rewrite rev_involutive. split; auto. split; auto.
      * left. assert (Ft : Forall (fun i => 1 <= i <= Z.of_nat (length alpha)) t).
        { destruct (desc_hd _ _ (conj D F)) as [_ B]. destruct t as [|h t]; [constructor|]. pose proof (Forall_inv F). cbn in Nh. rewrite Forall_forall in *. intros i Hi. specialize (B i Hi). specialize (F i Hi). cbn in B. blia. }
        apply IH. exists t. split; [now split|]. now rewrite <- SEL.
Qed.
(** * The loop *)
Lemma subset_loop_ok alpha : forall e l, e <> [] -> chain (Z.of_nat (length alpha)) e ->
  subset_loop (length e) alpha (hd [] e) l = Ok (fold_left insert_gcd (map (fun t => gcd_of_first (select alpha t)) e) l).
Proof.
  induction e as [|t e IH]; intros l N C; [congruence|]. cbn [length subset_loop hd map fold_left]. destruct e as [|t2 e]; [reflexivity|].
  destruct C as [C0 C]. cbn [length]. rewrite C0. cbn [bind]. change (S (length e)) with (length (t2 :: e)). change t2 with (hd [] (t2 :: e)) at 1. now rewrite IH.
Qed.
Lemma fold_insert vs : forall l, Forall (fun v => 0 < v) vs -> wf l -> wf (fold_left insert_gcd vs l) /\ forall v, In v (stored (fold_left insert_gcd vs l)) <-> In v (stored l) \/ In v vs.
Proof.
  induction vs as [|w vs IH]; intros l P W; cbn [fold_left].
  - split; auto. intros v; cbn; tauto.
  - destruct (IH (insert_gcd l w) (Forall_inv_tail P) (wf_insert l w (Forall_inv P) W)) as [W' I]. split; auto. intros v. rewrite I, insert_In. cbn. intuition.
Qed.
Lemma gcd_fold_left l : forall a, 0 <= a -> fold_left Z.gcd l a = Z.gcd a (gcd_list l).
Proof. induction l as [|b l IH]; intros a Ha; cbn; [rewrite Z.gcd_0_r; blia|]. rewrite IH by apply Z.gcd_nonneg. now rewrite Z.gcd_assoc. Qed.
Lemma gcd_of_first_ok l : Forall (fun x => 0 < x) l -> gcd_of_first l = gcd_list l.
Proof. destruct l as [|a l]; intros H; auto. cbn. pose proof (Forall_inv H). cbn beta in *. now rewrite gcd_fold_left by blia. Qed.
Lemma gcd_list_rev l : gcd_list (rev l) = gcd_list l.
Proof.
  induction l as [|a l IH]; auto. cbn [rev]. rewrite gcd_list_app, IH. cbn [gcd_list fold_right]. change (gcd_list (a :: l)) with (Z.gcd a (gcd_list l)). rewrite Z.gcd_0_r, Z.gcd_abs_r. apply Z.gcd_comm.
Qed.
Definition gcd_exactly (alpha : list Z) (k : nat) (v : Z) : Prop := exists S, sublist S alpha /\ length S = k /\ gcd_list S = v.
Lemma subsets_ok alpha k l : Forall (fun x => 0 < x) alpha -> gcd_list alpha = 1 -> (1 <= k <= length alpha)%nat -> wf l ->
  exists l', gcds_subsets alpha k l = Ok l' /\ wf l' /\ forall v, In v (stored l') <-> In v (stored l) \/ gcd_exactly alpha k v.
Proof.
  intros P G1 Hk W. unfold gcds_subsets. destruct (Nat.eqb_spec k (length alpha)) as [->|N].
  - eexists. split; [reflexivity|]. split; [apply wf_insert; auto; blia|]. intros v. rewrite insert_In.
    assert (F : gcd_exactly alpha (length alpha) v <-> v = 1); [|rewrite F; tauto]. split.
    + intros (S & H & L & <-). assert (S = alpha) as ->; auto. clear - H L. revert L. induction H as [|a S l H IH|a S l H IH]; cbn; intros L; auto; [f_equal; apply IH; blia|].
      exfalso. assert (Q : (length S <= length l)%nat); [|blia]. clear - H. induction H; cbn; blia.
    + intros ->. exists alpha. split; [|auto]. clear. induction alpha; constructor; auto.
  - destruct k as [|k']; [blia|]. set (k := S k') in *. rewrite tk_binomial_ok by blia. cbn [bind].
    set (n := Z.of_nat (length alpha)). destruct (enum_first k n ltac:(blia)) as (r & E).
    replace (Z.to_nat (binom (length alpha) k)) with (length (enum n k)) by (rewrite <- enum_length; unfold n; blia).
    replace (countdown k) with (hd [] (enum n k)) by (rewrite E; reflexivity).
    rewrite subset_loop_ok; [|rewrite E; discriminate|apply enum_chain; blia]. eexists. split; [reflexivity|].
    assert (SP : forall t, In t (enum n k) -> exists S, sublist S alpha /\ length S = k /\ gcd_of_first (select alpha t) = gcd_list S /\ 0 < gcd_list S).
    { intros t Ht. apply in_enum in Ht as [L D]. exists (rev (select alpha t)).
      assert (H : sublist (rev (select alpha t)) alpha) by (apply select_sublist; exists t; split; auto; now rewrite rev_involutive).
      assert (PS := sublist_Forall _ _ _ H P). split; auto. split; [unfold select; rewrite rev_length, map_length; auto|]. split.
      - rewrite gcd_list_rev, gcd_of_first_ok; auto. apply Forall_rev in PS. now rewrite rev_involutive in PS.
      - apply gcd_list_pos; auto. intros X. apply (f_equal (@length Z)) in X. unfold select in X. rewrite rev_length, map_length, L in X. discriminate. }
    destruct (fold_insert (map (fun t => gcd_of_first (select alpha t)) (enum n k)) l) as [W' I]; auto.
    { apply Forall_forall. intros v Hv. apply in_map_iff in Hv as (t & <- & Ht). destruct (SP t Ht) as (S & _ & _ & -> & Q). exact Q. }
    split; auto. intros v. rewrite I. assert (F : In v (map (fun t => gcd_of_first (select alpha t)) (enum n k)) <-> gcd_exactly alpha k v); [|rewrite F; tauto]. split.
    + intros Hv. apply in_map_iff in Hv as (t & <- & Ht). destruct (SP t Ht) as (S & H1 & H2 & H3 & _). exists S. auto.
    + intros (S & H & L & <-). pose proof (sublist_Forall _ _ _ H P) as PS. apply select_sublist in H as (t & D & Es). apply in_map_iff. exists t. split.
      * rewrite Es, gcd_of_first_ok by now apply Forall_rev. apply gcd_list_rev.
      * apply in_enum. split; auto. apply (f_equal (@length Z)) in Es. unfold select in Es. rewrite rev_length, map_length in Es. blia.
Qed.
Lemma sizes_ok alpha : Forall (fun x => 0 < x) alpha -> gcd_list alpha = 1 -> forall n i l, (i + n <= length alpha)%nat -> wf l ->
  exists l', gcds_sizes n i alpha l = Ok l' /\ wf l' /\ forall v, In v (stored l') <-> In v (stored l) \/ exists k, (length alpha < k + i + n)%nat /\ (k + i <= length alpha)%nat /\ gcd_exactly alpha k v.
Proof.
  intros P G. induction n as [|n IH]; intros i l H W; cbn [gcds_sizes].
  - exists l. split; auto. split; auto. intros v. split; [auto|]. intros [Hv|(k & A & B & _)]; auto. blia.
  - destruct (subsets_ok alpha (length alpha - i) l P G ltac:(blia) W) as (l1 & E1 & W1 & I1). rewrite E1. cbn [bind].
    destruct (IH (S i) l1 ltac:(blia) W1) as (l' & E & W' & I). exists l'. split; auto. split; auto. intros v. rewrite I, I1. split.
    + intros [[Hv|Hv]|(k & A & B & Hv)]; auto; [right; exists (length alpha - i)%nat; repeat split; auto; blia|right; exists k; repeat split; auto; blia].
    + intros [Hv|(k & A & B & Hv)]; auto. destruct (Nat.eq_dec (k + i) (length alpha)) as [X|X]; [left; right; now replace (length alpha - i)%nat with k by blia|]. right. exists k. repeat split; auto; blia.
Qed.
Theorem by_subsets_ok alpha k : Forall (fun x => 0 < x) alpha -> gcd_list alpha = 1 -> (k < length alpha)%nat ->
  exists l, find_gcds true alpha k = Ok l /\ NoDup (stored l) /\ forall g, In g (stored l) <-> gcd_of_sublist alpha (length alpha - k) g.
Proof.
  intros P G Hk. unfold find_gcds. destruct (sizes_ok alpha P G (k + 1) 0 []) as (l & E & W & I); [blia|split; constructor|].
  exists l. split; auto. split; [apply W|]. intros g. rewrite I. cbn [stored map In]. split.
  - intros [[]|(j & A & B & (S & H & L & Eg))]. exists S. split; auto. split; [blia|]. split; auto. intros ->. cbn in L. blia.
  - intros (S & H & L & N & Eg). right. exists (length S). assert (LS : (length S <= length alpha)%nat) by (clear - H; induction H; cbn; blia). split; [blia|]. split; [blia|]. exists S. auto.
Qed.
