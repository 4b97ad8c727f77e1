From Coq Require Import QArith Permutation Sorted Znumtheory.
From Verif Require Import Common Knapsack KnapsackSpec KnapsackProofs.
Open Scope Z_scope.

(** * Sorted lists and binary search *)
Definition inc (l : list Z) : Prop := StronglySorted Z.lt l.
Lemma SS_app {A} (R : A -> A -> Prop) l r : StronglySorted R (l ++ r) <-> StronglySorted R l /\ StronglySorted R r /\ forall a b, In a l -> In b r -> R a b.
Proof.
  induction l as [|x l IH]; cbn.
  - split; [intros H; split; [constructor|split; [auto|intros a b []]]|tauto].
  - split.
    + intros H. apply StronglySorted_inv in H as [H F]. apply IH in H as (H1 & H2 & H3). rewrite Forall_forall in F. split; [constructor; auto; apply Forall_forall; intros; apply F, in_app_iff; auto|].
      split; auto. intros a b [<-|Ha] Hb; auto. apply F, in_app_iff. auto.
    + intros (H1 & H2 & H3). apply StronglySorted_inv in H1 as [H1 F]. constructor; [apply IH; auto|]. rewrite Forall_forall in *. intros y Hy. apply in_app_iff in Hy as [Hy|Hy]; auto.
Qed.
Lemma SS_rev {A} (R : A -> A -> Prop) l : StronglySorted R l <-> StronglySorted (fun a b => R b a) (rev l).
Proof.
  induction l as [|x l IH]; cbn; [split; constructor|]. rewrite SS_app, <- IH. split.
  - intros H. apply StronglySorted_inv in H as [H F]. rewrite Forall_forall in F. split; auto. split; [repeat constructor|]. intros a b Ha [<-|[]]. apply in_rev in Ha. auto.
  - intros (H1 & _ & H). constructor; auto. apply Forall_forall. intros y Hy. apply H; [now apply in_rev in Hy|now left].
Qed.
Lemma inc_nth l : inc l -> forall i j, (i < j)%nat -> (j < length l)%nat -> nth i l 0 < nth j l 0.
Proof.
  induction 1 as [|a l H IH F]; intros i j Hi Hj; cbn in Hj; [lia|]. destruct j as [|j]; [lia|]. destruct i as [|i]; cbn.
  - rewrite Forall_forall in F. apply F, nth_In. lia.
  - apply IH; lia.
Qed.
Lemma lower_bound_ok l v : inc l -> forall fuel first len, (len <= fuel)%nat -> (first + len <= length l)%nat ->
  (forall i, (i < first)%nat -> nth i l 0 < v) -> (forall i, (first + len <= i)%nat -> (i < length l)%nat -> v <= nth i l 0) ->
  let p := lower_bound fuel l first len v in (p <= length l)%nat /\ (forall i, (i < p)%nat -> nth i l 0 < v) /\ (forall i, (p <= i)%nat -> (i < length l)%nat -> v <= nth i l 0).
Proof.
  intros Hs. induction fuel as [|f IH]; intros first len Hf Hl H1 H2; cbv zeta.
  - replace len with O in * by lia. cbn. split; [lia|]. split; auto. intros i Hi. apply H2. lia.
  - cbn [lower_bound]. destruct len as [|len']; [split; [lia|]; split; auto; intros i Hi; apply H2; lia|].
    set (len := S len') in *. set (h := Nat.div2 len). assert (Hh : (h < len)%nat) by (apply Nat.lt_div2; lia).
    destruct (Z.ltb_spec (nth (first + h) l 0) v) as [L|L].
    + apply IH; try lia.
      * intros i Hi. destruct (Nat.eq_dec i (first + h)) as [->|N]; auto. pose proof (inc_nth l Hs i (first + h) ltac:(lia) ltac:(lia)). lia.
      * intros i Hi Hl'. apply H2; lia.
    + apply IH; try lia; auto. intros i Hi Hl'. destruct (Nat.eq_dec i (first + h)) as [->|N]; auto. pose proof (inc_nth l Hs (first + h) i ltac:(lia) ltac:(lia)). lia.
Qed.
Lemma binary_search_ok l v : inc l -> binary_search l v = true <-> In v l.
Proof.
  intros Hs. destruct (lower_bound_ok l v Hs (length l) 0 (length l) ltac:(lia) ltac:(lia) ltac:(lia) ltac:(lia)) as (P & H1 & H2). cbv zeta in *.
  unfold binary_search. set (p := lower_bound _ _ _ _ _) in *. split.
  - intros H. apply andb_prop in H as [A B]. apply Nat.ltb_lt in A. apply negb_true_iff, Z.ltb_ge in B. specialize (H2 p ltac:(lia) A). replace v with (nth p l 0) by lia. now apply nth_In.
  - intros H. apply (In_nth _ _ 0) in H as (i & Hi & <-). assert (Hp : (p <= i)%nat) by (destruct (Nat.le_gt_cases p i); auto; specialize (H1 i ltac:(lia)); lia).
    destruct (Nat.ltb_spec p (length l)); [|lia]. cbn [andb]. apply negb_true_iff, Z.ltb_ge. destruct (Nat.eq_dec p i) as [->|]; [lia|]. pose proof (inc_nth l Hs p i ltac:(lia) Hi). lia.
Qed.
Lemma bubble_perm r x : Permutation (bubble r x) (x :: r).
Proof. induction r as [|a r IH]; cbn; auto. destruct (x <? a); auto. rewrite IH. apply perm_swap. Qed.
Lemma bubble_sorted r x : StronglySorted (fun a b => b < a) r -> ~ In x r -> StronglySorted (fun a b => b < a) (bubble r x).
Proof.
  induction 1 as [|a r H IH F]; intros N; cbn; [repeat constructor|]. destruct (Z.ltb_spec x a).
  - constructor; [apply IH; intros X; apply N; now right|]. apply Forall_forall. intros y Hy. apply (Permutation_in _ (bubble_perm r x)) in Hy as [<-|Hy]; [lia|]. rewrite Forall_forall in F. auto.
  - assert (a < x) by (assert (x <> a) by (intros ->; apply N; now left); lia). constructor; [constructor; auto|]. constructor; auto. rewrite Forall_forall in *. intros y Hy. specialize (F y Hy). lia.
Qed.
Lemma bubble_app r1 r2 x : Forall (fun a => x < a) r1 -> bubble (r1 ++ r2) x = r1 ++ bubble r2 x.
Proof. induction 1 as [|a r H F IH]; cbn; auto. destruct (Z.ltb_spec x a); [now rewrite IH|lia]. Qed.
Lemma push_app l1 l2 x : Forall (fun a => x < a) l2 -> push_sorted (l1 ++ l2) x = push_sorted l1 x ++ l2.
Proof. intros H. unfold push_sorted. rewrite rev_app_distr, bubble_app by now apply Forall_rev. now rewrite rev_app_distr, rev_involutive. Qed.
Lemma push_perm l x : Permutation (push_sorted l x) (x :: l).
Proof. unfold push_sorted. rewrite <- Permutation_rev, bubble_perm. constructor. symmetry. apply Permutation_rev. Qed.
Lemma push_inc l x : inc l -> ~ In x l -> inc (push_sorted l x).
Proof.
  intros H N. unfold push_sorted, inc. apply SS_rev. rewrite rev_involutive. apply bubble_sorted.
  - apply SS_rev in H. apply H.
  - intros X. apply N. now apply in_rev.
Qed.
Lemma insert_new_ok l x : inc l -> inc (insert_new l x) /\ forall y, In y (insert_new l x) <-> In y l \/ y = x.
Proof.
  intros H. unfold insert_new. destruct (binary_search l x) eqn:E.
  - apply binary_search_ok in E; auto. split; auto. intros y. split; [now left|]. intros [Hy| ->]; auto.
  - assert (N : ~ In x l) by (rewrite <- (binary_search_ok l x H), E; discriminate). split; [now apply push_inc|].
    intros y. split; intros Hy; [apply (Permutation_in _ (push_perm l x)) in Hy as [<-|Hy]; auto|]. apply (Permutation_in _ (Permutation_sym (push_perm l x))). destruct Hy as [Hy| ->]; [now right|now left].
Qed.

(** * The dynamic programme over all sublists *)
Lemma gcd_step out x a : inc out -> 0 < x -> 0 < a -> forall pre suf, out = pre ++ x :: suf ->
  exists pre', length pre' = (length pre + (if binary_search out (Z.gcd x a) then 0 else 1))%nat /\
    insert_new out (Z.gcd x a) = pre' ++ x :: suf.
Proof.
  intros H Hx Ha pre suf E. unfold insert_new. destruct (binary_search out (Z.gcd x a)) eqn:B; [exists pre; split; [lia|auto]|].
  assert (N : ~ In (Z.gcd x a) out) by (rewrite <- (binary_search_ok out _ H), B; discriminate).
  assert (L : Z.gcd x a < x). { pose proof (Z.divide_pos_le _ _ Hx (Z.gcd_divide_l x a)). assert (Z.gcd x a <> x); [|lia]. intros X. apply N. rewrite X, E. apply in_app_iff. right. now left. }
  exists (push_sorted pre (Z.gcd x a)). split; [rewrite (Permutation_length (push_perm pre _)); cbn; lia|].
  rewrite E. apply push_app. unfold inc in H. rewrite E in H. apply SS_app in H as (_ & H & _). apply StronglySorted_inv in H as [_ F]. constructor; auto. rewrite Forall_forall in *. intros y Hy. specialize (F y Hy). lia.
Qed.
Definition sees (out0 : list Z) (a : Z) (done : list Z) (out : list Z) : Prop :=
  inc out /\ (forall y, In y out <-> In y out0 \/ exists x, In x done /\ y = Z.gcd x a).
Lemma gcd_loop_ok out0 a : 0 < a -> Forall (fun x => 0 < x) out0 -> forall suf done pre out fuel, out = pre ++ suf -> out0 = done ++ suf -> (2 * length suf <= fuel)%nat ->
  sees out0 a done out -> exists out', gcd_loop fuel out (length pre) a = Ok out' /\ sees out0 a out0 out'.
Proof.
  intros Ha P. induction suf as [|x suf IH]; intros done pre out fuel Eo E0 Hf [S1 S2].
  - rewrite app_nil_r in Eo, E0. subst pre done. exists out. split; [|split; auto]. destruct fuel; cbn [gcd_loop]; destruct (Nat.leb_spec (length out) (length out)); auto; lia.
  - assert (Hx : 0 < x) by (rewrite Forall_forall in P; apply P; rewrite E0; apply in_app_iff; right; now left).
    cbn [length] in Hf. destruct fuel as [|fuel]; [lia|]. cbn [gcd_loop].
    assert (L : (length pre < length out)%nat) by (rewrite Eo, app_length; cbn; lia). destruct (Nat.leb_spec (length out) (length pre)); [lia|].
    assert (Nx : nth (length pre) out 0 = x) by (rewrite Eo, app_nth2, Nat.sub_diag by lia; reflexivity). rewrite Nx.
    destruct (gcd_step out x a S1 Hx Ha pre suf Eo) as (pre' & L' & E'). set (out1 := insert_new out (Z.gcd x a)) in *.
    destruct (insert_new_ok out (Z.gcd x a) S1) as [I1 I2]. fold out1 in I1, I2.
    assert (S' : sees out0 a (done ++ [x]) out1).
    { split; auto. intros y. rewrite I2, S2. split.
      - intros [[H1|(z & Hz & ->)]| ->]; [now left|right; exists z; split; auto; apply in_app_iff; auto|right; exists x; split; auto; apply in_app_iff; right; now left].
      - intros [H1|(z & Hz & ->)]; [auto|]. apply in_app_iff in Hz as [Hz|[<-|[]]]; eauto. }
    assert (E1 : out0 = (done ++ [x]) ++ suf) by (rewrite <- app_assoc; exact E0).
    destruct (binary_search out (Z.gcd x a)) eqn:B.
    + replace (S (length pre)) with (length (pre' ++ [x])) by (rewrite app_length, L'; cbn; lia). apply (IH (done ++ [x])); auto; [rewrite E', <- app_assoc; reflexivity|lia].
    + (* the same element is met once more *)
      destruct fuel as [|fuel]; [lia|]. cbn [gcd_loop].
      assert (L1 : S (length pre) = length pre') by lia. rewrite L1.
      assert (Hl : (length pre' < length out1)%nat) by (rewrite E', app_length; cbn; lia). destruct (Nat.leb_spec (length out1) (length pre')); [lia|].
      assert (Nx1 : nth (length pre') out1 0 = x) by (rewrite E', app_nth2, Nat.sub_diag by lia; reflexivity). rewrite Nx1.
      assert (B1 : insert_new out1 (Z.gcd x a) = out1). { unfold insert_new. rewrite (proj2 (binary_search_ok out1 (Z.gcd x a) I1)); auto. apply I2. now right. }
      rewrite B1. replace (S (length pre')) with (length (pre' ++ [x])) by (rewrite app_length; cbn; lia). apply (IH (done ++ [x])); auto; [rewrite E', <- app_assoc; reflexivity|lia].
Qed.
(** gcds of non-empty sublists *)
Definition isgcd (l : list Z) (y : Z) : Prop := exists S, sublist S l /\ S <> [] /\ gcd_list S = y.
Lemma sublist_nil {A} (l : list A) : sublist [] l.
Proof. induction l; constructor; auto. Qed.
Lemma sublist_app_one {A} (S l : list A) a : sublist S (l ++ [a]) <-> sublist S l \/ exists T, S = T ++ [a] /\ sublist T l.
Proof.
  split.
  - revert S. induction l as [|b l IH]; cbn; intros S H.
    + inversion H as [|? S' L' H'|? S' L' H']; subst; inversion H'; subst; [right; exists []; split; auto; constructor|left; constructor].
    + inversion H as [|? S' L' H'|? S' L' H']; subst.
      * destruct (IH _ H') as [K|(T & -> & K)]; [left; now constructor|right; exists (b :: T); split; auto; now constructor].
      * destruct (IH _ H') as [K|(T & -> & K)]; [left; now constructor|right; exists T; split; auto; now constructor].
  - intros [H|(T & -> & H)].
    + induction H; cbn; [apply sub_drop, sub_nil|now apply sub_keep|now apply sub_drop].
    + induction H; cbn; [apply sub_keep, sub_nil|now apply sub_keep|now apply sub_drop].
Qed.
Lemma gcd_list_app S T : gcd_list (S ++ T) = Z.gcd (gcd_list S) (gcd_list T).
Proof.
  unfold gcd_list. induction S as [|a S IH]; cbn [app fold_right].
  - rewrite Z.gcd_0_l. symmetry. apply Z.abs_eq. destruct T; cbn; [lia|apply Z.gcd_nonneg].
  - now rewrite IH, Z.gcd_assoc.
Qed.
Lemma gcd_single a : 0 < a -> gcd_list [a] = a.
Proof. intros H. cbn. rewrite Z.gcd_0_r. lia. Qed.
Lemma isgcd_snoc l a y : 0 < a -> isgcd (l ++ [a]) y <-> isgcd l y \/ y = a \/ exists x, isgcd l x /\ y = Z.gcd x a.
Proof.
  intros Ha. split.
  - intros (S & H & N & <-). apply sublist_app_one in H as [H|(T & -> & H)]; [left; now exists S|]. right.
    rewrite gcd_list_app, gcd_single by auto. destruct T as [|t T]; [left; cbn; rewrite Z.abs_eq; lia|right]. exists (gcd_list (t :: T)). split; auto. exists (t :: T). repeat split; auto. discriminate.
  - intros [(S & H & N & <-)|[->|(x & (S & H & N & <-) & ->)]].
    + exists S. repeat split; auto. apply sublist_app_one. now left.
    + exists [a]. split; [apply sublist_app_one; right; exists []; split; auto; apply sublist_nil|]. split; [discriminate|now apply gcd_single].
    + exists (S ++ [a]). split; [apply sublist_app_one; right; exists S; auto|]. split; [now destruct S|]. now rewrite gcd_list_app, gcd_single.
Qed.
Lemma gcd_all_ok : forall alpha done out, Forall (fun x => 0 < x) (done ++ alpha) -> inc out -> (forall y, In y out <-> isgcd done y) ->
  exists out', gcd_all out alpha = Ok out' /\ inc out' /\ forall y, In y out' <-> isgcd (done ++ alpha) y.
Proof.
  induction alpha as [|a alpha IH]; intros done out P Ho Hd; cbn [gcd_all].
  - exists out. rewrite app_nil_r. auto.
  - assert (Ha : 0 < a) by (rewrite Forall_forall in P; apply P, in_app_iff; right; now left).
    assert (Po : Forall (fun x => 0 < x) out).
    { apply Forall_forall. intros y Hy. apply Hd in Hy as (S & H & N & <-). destruct S as [|s S]; [congruence|]. assert (Hs : 0 < s).
      { rewrite Forall_forall in P. apply P. apply in_app_iff. left. clear - H. remember (s :: S) as T. revert s S HeqT. induction H; intros s' S' E; [discriminate| |right; eauto]. injection E as -> _. now left. }
      cbn. pose proof (Z.gcd_nonneg s (fold_right Z.gcd 0 S)). assert (Z.gcd s (fold_right Z.gcd 0 S) <> 0); [|lia]. intros X. apply Z.gcd_eq_0_l in X. lia. }
    destruct (gcd_loop_ok out a Ha Po out [] [] out (2 * length out)) as (o & E & S1 & S2); auto; [split; auto; intros y; split; [now left|intros [H|(x & [] & _)]; auto]|].
    change (length (@nil Z)) with O in E. rewrite E. cbn [bind]. destruct (insert_new_ok o a S1) as [I1 I2].
    destruct (IH (done ++ [a]) (insert_new o a)) as (out' & E' & R1 & R2).
    + now rewrite <- app_assoc.
    + exact I1.
    + intros y. rewrite I2, S2, isgcd_snoc by auto. rewrite Hd. split.
      * intros [[H|(x & H & ->)]| ->]; auto. right. right. exists x. split; auto. now apply Hd.
      * intros [H|[->|(x & H & ->)]]; auto. left. right. exists x. split; auto. now apply Hd.
    + exists out'. rewrite E'. rewrite <- app_assoc in R2. auto.
Qed.
