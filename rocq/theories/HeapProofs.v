From Coq Require Import Permutation ZifyBool ZifyNat.
From Verif Require Import Common Heap HeapSpec.
Ltac Zify.zify_post_hook ::= Z.div_mod_to_equations.

Section Proofs.
Context {W D : Type}.
Variable cmp : W -> W -> Z.
Hypothesis TP : total_preorder cmp.
Notation entry := (@entry W D).
Implicit Types (a : nat -> entry).

Definition le (x y : entry) : Prop := (cmp (weight x) (weight y) <= 0)%Z.
Lemma le_trans x y z : le x y -> le y z -> le x z.
Proof. unfold le. apply (proj2 TP). Qed.
Lemma le_refl x : le x x.
Proof. unfold le. destruct (proj1 TP (weight x) (weight x)). lia. Qed.
Lemma gt_le x y : (0 < cmp (weight x) (weight y))%Z -> le y x.
Proof. unfold le. destruct (proj1 TP (weight x) (weight y)). lia. Qed.
Lemma lt_le x y : (cmp (weight x) (weight y) < 0)%Z -> le x y.
Proof. unfold le. lia. Qed.
Lemma nlt_le x y : ~ (cmp (weight x) (weight y) < 0)%Z -> le y x.
Proof. unfold le. destruct (proj1 TP (weight y) (weight x)). lia. Qed.
Lemma ngt_le x y : ~ (0 < cmp (weight x) (weight y))%Z -> le x y.
Proof. unfold le. lia. Qed.

Definition abs (n : nat) a : list entry := map a (seq 0 n).

Lemma abs_S n a : abs (S n) a = abs n a ++ [a n].
Proof. unfold abs. rewrite seq_S, map_app. reflexivity. Qed.
Lemma length_abs n a : length (abs n a) = n.
Proof. unfold abs. now rewrite map_length, seq_length. Qed.
Lemma abs_ext n a a' : (forall i, i < n -> a i = a' i) -> abs n a = abs n a'.
Proof. intros H. unfold abs. apply map_ext_in. intros i Hi. apply in_seq in Hi. apply H. lia. Qed.
Lemma abs_cons n a : abs (S n) a = a 0 :: map a (seq 1 n).
Proof. reflexivity. Qed.

Lemma store_same a i e : store a i e i = e.
Proof. unfold store. now rewrite Nat.eqb_refl. Qed.
Lemma store_other a i e k : k <> i -> store a i e k = a k.
Proof. intros. unfold store. now destruct (Nat.eqb_spec k i). Qed.
Lemma swap_l a i j : swap a i j i = a j.
Proof. unfold swap. now rewrite Nat.eqb_refl. Qed.
Lemma swap_r a i j : swap a i j j = a i.
Proof. unfold swap. rewrite Nat.eqb_refl. destruct (Nat.eqb_spec j i); congruence. Qed.
Lemma swap_o a i j k : k <> i -> k <> j -> swap a i j k = a k.
Proof. intros. unfold swap. destruct (Nat.eqb_spec k i), (Nat.eqb_spec k j); congruence. Qed.

Lemma abs_store_perm n a i e : i < n -> Permutation (a i :: abs n (store a i e)) (e :: abs n a).
Proof.
  revert i; induction n as [|n IH]; intros i Hi; [lia|].
  rewrite !abs_S. destruct (Nat.eq_dec i n) as [->|N].
  - rewrite store_same. rewrite (abs_ext n (store a n e) a) by (intros; apply store_other; lia).
    rewrite app_comm_cons. etransitivity; [apply Permutation_app_comm|]. simpl. apply perm_skip.
    rewrite <- Permutation_cons_append. reflexivity.
  - rewrite store_other by lia. rewrite !app_comm_cons. apply Permutation_app_tail. apply IH. lia.
Qed.

Lemma swap_perm n a i j : i < n -> j < n -> Permutation (abs n (swap a i j)) (abs n a).
Proof.
  intros Hi Hj. destruct (Nat.eq_dec i j) as [->|N].
  - rewrite (abs_ext n _ a); [reflexivity|]. intros k _. destruct (Nat.eq_dec k j) as [->|].
    + apply swap_l. + now apply swap_o.
  - pose proof (abs_store_perm n a i (a j) Hi) as P1.
    pose proof (abs_store_perm n (store a i (a j)) j (a i) Hj) as P2.
    rewrite (store_other a i (a j) j) in P2 by lia.
    rewrite (abs_ext n (swap a i j) (store (store a i (a j)) j (a i))).
    + apply (Permutation_cons_inv (a := a j)). rewrite P2. exact P1.
    + intros k _. destruct (Nat.eq_dec k j) as [->|].
      * now rewrite swap_r, store_same.
      * rewrite store_other by lia. destruct (Nat.eq_dec k i) as [->|].
        -- now rewrite swap_l, store_same.
        -- now rewrite swap_o, store_other.
Qed.

(** c is a child of p *)
Definition child_of (c p : nat) : Prop := c = 2 * p + 1 \/ c = 2 * p + 2.
(** heap order for all parents >= lo *)
Definition heap_from (lo n : nat) a : Prop :=
  forall p c, lo <= p -> child_of c p -> c < n -> le (a p) (a c).
Definition heap_except (lo n x : nat) a : Prop :=
  (forall p c, lo <= p -> p <> x -> child_of c p -> c < n -> le (a p) (a c)) /\
  (forall p c, lo <= p -> child_of x p -> child_of c x -> c < n -> le (a p) (a c)).

Lemma percolate_ok lo n : forall f a x, n < f + x -> lo <= x -> x < n \/ x = 0 -> heap_except lo n x a ->
  exists a', percolate_down cmp f n a x = Ok a' /\ heap_from lo n a' /\
    Permutation (abs n a') (abs n a) /\ (forall k, k < lo -> a' k = a k).
Proof.
  induction f as [|f IH]; intros a x Hf Hlo Hx [H1 H2].
  { lia. }
  cbn [percolate_down].
  set (c0 := 2 * x + 1).
  destruct (Nat.ltb_spec c0 n) as [L|L].
  2:{ exists a. split; [reflexivity|]. split; [|split; [reflexivity|auto]].
      intros p c Hp Hc Hn. destruct (Nat.eq_dec p x) as [->|N]; [unfold child_of in Hc; lia|]. eauto. }
  set (c := if _ && _ then c0 + 1 else c0).
  assert (Hc : child_of c x /\ c < n /\ (forall c', child_of c' x -> c' < n -> le (a c) (a c'))).
  { unfold c. destruct (Nat.ltb_spec c0 (n - 1)) as [L1|L1]; cbn [andb].
    - destruct (Z.ltb_spec (cmp (weight (a (c0 + 1))) (weight (a c0))) 0) as [L2|L2].
      + split; [unfold child_of; lia|]. split; [lia|]. intros c' [->| ->] Hc'.
        * apply lt_le. exact L2.
        * replace (2 * x + 2) with (c0 + 1) by lia. apply le_refl.
      + split; [unfold child_of; lia|]. split; [lia|]. intros c' [->| ->] Hc'.
        * apply le_refl.
        * replace (2 * x + 2) with (c0 + 1) by lia. apply nlt_le. lia.
    - split; [unfold child_of; lia|]. split; [lia|]. intros c' [->| ->] Hc'.
      * apply le_refl. * unfold c0 in *. lia. }
  clearbody c. destruct Hc as (Hc & Hcn & Hmin).
  destruct (Z.ltb_spec 0 (cmp (weight (a x)) (weight (a c)))) as [G|G].
  - assert (Nxc : x <> c) by (unfold child_of in Hc; lia).
    destruct (IH (swap a x c) c) as (a' & E & Hh & Hp & Hk).
    + unfold child_of in Hc; lia.
    + unfold child_of in Hc; lia.
    + auto.
    + split.
      * intros p d Hp Hpc Hd Hdn. destruct (Nat.eq_dec p x) as [->|Npx].
        -- rewrite swap_l. destruct (Nat.eq_dec d c) as [->|Ndc].
           ++ rewrite swap_r. apply gt_le. exact G.
           ++ rewrite swap_o by (unfold child_of in Hd; lia). now apply Hmin.
        -- rewrite (swap_o a x c p) by assumption.
           destruct (Nat.eq_dec d x) as [->|Ndx].
           ++ rewrite swap_l. apply H2; auto.
           ++ rewrite swap_o; [now apply H1|assumption|unfold child_of in *; lia].
      * intros p d Hp Hcp Hd Hdn. assert (p = x) by (unfold child_of in *; lia). subst p.
        rewrite swap_l. rewrite swap_o by (unfold child_of in *; lia).
        apply H1; try assumption; unfold child_of in *; lia.
    + exists a'. split; [exact E|]. split; [exact Hh|]. split.
      * rewrite Hp. apply swap_perm; unfold child_of in Hc; lia.
      * intros k Hkl. rewrite Hk by exact Hkl. apply swap_o; unfold child_of in Hc; lia.
  - exists a. split; [reflexivity|]. split; [|split; [reflexivity|auto]].
    intros p d Hp Hd Hdn. destruct (Nat.eq_dec p x) as [->|N]; [|eauto].
    apply le_trans with (a c); [|now apply Hmin]. now apply ngt_le; lia.
Qed.

Lemma bubble_ok : forall f a n x, x < f -> x < n ->
  (forall p c, c <> x -> child_of c p -> c < n -> le (a p) (a c)) ->
  (forall p c, child_of x p -> child_of c x -> c < n -> le (a p) (a c)) ->
  exists a', bubble_up cmp f a x = Ok a' /\ heap_from 0 n a' /\ Permutation (abs n a') (abs n a).
Proof.
  induction f as [|f IH]; intros a n x Hf Hx H1 H2; [lia|]. cbn [bubble_up].
  destruct (Nat.ltb_spec 0 x) as [L|L].
  2:{ exists a. split; [reflexivity|]. split; [|reflexivity]. intros p c _ Hc Hn. apply H1; auto.
      unfold child_of in Hc; lia. }
  set (p := (x - 1) / 2).
  assert (Hp : child_of x p) by (unfold child_of, p; lia).
  assert (Up : forall q, child_of x q -> q = p) by (intros q; unfold child_of in *; lia).
  clearbody p.
  destruct (Z.ltb_spec (cmp (weight (a x)) (weight (a p))) 0) as [G|G].
  - destruct (IH (swap a x p) n p) as (a' & E & Hh & Hperm).
    + unfold child_of in Hp; lia.
    + unfold child_of in Hp; lia.
    + intros q c Ncp Hc Hn. destruct (Nat.eq_dec q p) as [->|Nqp].
      * rewrite swap_r. destruct (Nat.eq_dec c x) as [->|Ncx].
        -- rewrite swap_l. apply lt_le, G.
        -- rewrite swap_o by assumption. apply le_trans with (a p); [apply lt_le, G|]. apply H1; auto.
      * destruct (Nat.eq_dec q x) as [->|Nqx].
        -- rewrite swap_l. rewrite swap_o; [|unfold child_of in *; lia|assumption]. apply H2; auto.
        -- rewrite swap_o by assumption. destruct (Nat.eq_dec c x) as [->|Ncx]; [exfalso; auto|].
           rewrite swap_o by assumption. apply H1; auto.
    + intros q c Hq Hc Hn. rewrite (swap_o a x p q) by (unfold child_of in *; lia).
      assert (Lq : le (a q) (a p)) by (apply H1; unfold child_of in *; lia).
      destruct (Nat.eq_dec c x) as [->|Ncx].
      * rewrite swap_l. exact Lq.
      * rewrite swap_o; [|assumption|unfold child_of in *; lia].
        apply le_trans with (a p); [exact Lq|]. apply H1; auto.
    + exists a'. split; [exact E|]. split; [exact Hh|]. rewrite Hperm. apply swap_perm; unfold child_of in Hp; lia.
  - exists a. split; [reflexivity|]. split; [|reflexivity]. intros q c _ Hc Hn.
    destruct (Nat.eq_dec c x) as [->|N]; [|now apply H1].
    rewrite (Up q Hc). apply nlt_le. lia.
Qed.

Lemma heapify_loop_ok n : forall k a, k < n -> heap_from (S k) n a ->
  exists a', heapify_loop cmp n a k = Ok a' /\ heap_from 0 n a' /\ Permutation (abs n a') (abs n a).
Proof.
  induction k as [|k IH]; intros a Hk H; cbn [heapify_loop].
  - destruct (percolate_ok 0 n (S n) a 0) as (a' & E & Hh & Hp & _); try lia.
    { split. - intros p c _ Hp0 Hc Hn. apply H; auto; lia. - intros p c _ Hc0. unfold child_of in Hc0; lia. }
    rewrite E. cbn [bind]. eauto.
  - destruct (percolate_ok (S k) n (S n) a (S k)) as (a' & E & Hh & Hp & _); try lia.
    { split. - intros p c Hpk Hp0 Hc Hn. apply H; auto; lia. - intros p c Hpk Hc0. unfold child_of in Hc0; lia. }
    rewrite E. cbn [bind]. destruct (IH a') as (a2 & E2 & H2 & P2); [lia|exact Hh|].
    exists a2. split; [exact E2|]. split; [exact H2|]. now rewrite P2.
Qed.

Lemma heapify_ok n a : exists a', heapify cmp n a = Ok a' /\ heap_from 0 n a' /\ Permutation (abs n a') (abs n a).
Proof.
  unfold heapify. destruct (Nat.leb_spec n 1) as [L|L].
  - exists a. split; [reflexivity|]. split; [|reflexivity]. intros p c _ Hc Hn. unfold child_of in Hc; lia.
  - apply heapify_loop_ok; [lia|]. intros p c Hp Hc Hn. unfold child_of in Hc. lia.
Qed.

Lemma heap_top_least n a : heap_from 0 n a -> first_is_least cmp (abs n a).
Proof.
  intros H. destruct n as [|n]; [exact I|]. rewrite abs_cons. simpl. intros e He.
  apply in_map_iff in He as (i & <- & Hi). apply in_seq in Hi.
  assert (K : forall i, i < S n -> le (a 0) (a i)).
  { clear i Hi. induction i as [i IH] using lt_wf_ind. intros Hi.
    destruct (Nat.eq_dec i 0) as [->|N]; [apply le_refl|].
    apply le_trans with (a ((i - 1) / 2)); [apply IH; lia|]. apply H; unfold child_of; lia. }
  apply K. lia.
Qed.

(** Representation invariant and abstraction. *)
Definition inv (h : heap W D) : Prop :=
  next_pos h <= size h /\ (frozen h = false -> heap_from 0 (next_pos h) (arr h)).
Definition to_pq (h : heap W D) : pq := mkPQ (abs (next_pos h) (arr h)) (frozen h).

Lemma hstep_ok h o : inv h ->
  (refused (size h) (to_pq h) o /\ hstep cmp h o = Err AssertFail) \/
  (~ refused (size h) (to_pq h) o /\
   exists h' r, hstep cmp h o = Ok (h', r) /\ inv h' /\ size h' = size h /\
     pq_step cmp (size h) (to_pq h) o r (to_pq h')).
Proof.
  destruct h as [sz n fr a]. intros [I1 I2]. cbn [next_pos size frozen arr] in *. unfold to_pq. cbn [next_pos size frozen arr].
  destruct o as [e| | |w| | | |]; cbn [hstep refused items accumulating].
  - (* insert *)
    rewrite length_abs. unfold assert_then. destruct (Nat.ltb_spec n sz) as [L|L]; [right; split; [lia|]|left; split; [lia|reflexivity]].
    destruct fr; cbn [bind].
    + eexists; eexists; split; [reflexivity|]. split; [split; cbn; [lia|discriminate]|]. split; [reflexivity|]. cbn [next_pos arr frozen].
      rewrite Nat.add_1_r, abs_S, store_same.
      rewrite (abs_ext n (store a n e) a) by (intros; apply store_other; lia).
      constructor. now rewrite length_abs.
    + destruct (bubble_ok (S n) (store a n e) (S n) n) as (a' & E & Hh & Hp); try lia.
      * intros p c Nc Hc Hn. rewrite !store_other by (unfold child_of in Hc; lia). apply I2; auto; lia.
      * intros p c _ Hc Hn. unfold child_of in Hc; lia.
      * rewrite E. cbn [bind]. eexists; eexists; split; [reflexivity|]. rewrite Nat.add_1_r.
        split; [split; cbn; [lia|auto]|]. split; [reflexivity|]. cbn [next_pos arr frozen].
        constructor; [now rewrite length_abs| |now apply heap_top_least].
        rewrite Hp. rewrite abs_S, store_same.
        rewrite (abs_ext n (store a n e) a) by (intros; apply store_other; lia).
        symmetry. apply Permutation_cons_append.
  - (* pop *)
    unfold assert_then. destruct n as [|n]; [left; split; [now left|reflexivity]|].
    cbn [Nat.ltb Nat.leb]. destruct fr; cbn [negb]; [left; split; [now right|reflexivity]|].
    right. split; [intros [H|H]; discriminate|].
    replace (S n - 1) with n by lia.
    destruct (percolate_ok 0 n (S n) (store a 0 (weight (a n), data (a n))) 0) as (a' & E & Hh & Hp & _); try lia.
    { split.
      - intros p c _ Np Hc Hn. rewrite !store_other by (unfold child_of in Hc; lia). apply I2; auto; lia.
      - intros p c _ Hc0. unfold child_of in Hc0; lia. }
    rewrite E. cbn [bind]. eexists; eexists; split; [reflexivity|].
    split; [split; cbn; [lia|auto]|]. split; [reflexivity|]. cbn [next_pos arr frozen].
    rewrite abs_cons. constructor; [|now apply heap_top_least].
    rewrite Hp.
    destruct n as [|n]; [reflexivity|].
    pose proof (abs_store_perm (S n) a 0 (a (S n)) ltac:(lia)) as P.
    replace (weight (a (S n)), data (a (S n))) with (a (S n)) by (unfold weight, data; destruct (a (S n)); reflexivity).
    apply (Permutation_cons_inv (a := a 0)). rewrite P.
    change (a 0 :: map a (seq 1 (S n))) with (abs (S (S n)) a). rewrite (abs_S (S n)).
    apply Permutation_cons_append.
  - (* top *)
    unfold assert_then. destruct n as [|n]; [left; split; [now left|reflexivity]|].
    cbn [Nat.ltb Nat.leb]. destruct fr; cbn [negb]; [left; split; [now right|reflexivity]|].
    right. split; [intros [H|H]; discriminate|].
    eexists; eexists; split; [reflexivity|]. split; [split; cbn; auto|]. split; [reflexivity|].
    cbn [next_pos arr frozen]. rewrite abs_cons. constructor.
  - (* change top *)
    unfold assert_then. destruct n as [|n]; [left; split; [reflexivity|reflexivity]|].
    cbn [Nat.eqb negb]. right. split; [discriminate|].
    assert (A : abs (S n) (store a 0 (w, data (a 0))) = (w, snd (a 0)) :: map a (seq 1 n)).
    { rewrite abs_cons, store_same. f_equal. apply map_ext_in. intros i Hi. apply in_seq in Hi.
      apply store_other. lia. }
    destruct fr; cbn [bind].
    + eexists; eexists; split; [reflexivity|]. split; [split; cbn; [lia|discriminate]|]. split; [reflexivity|].
      cbn [next_pos arr frozen]. rewrite A, abs_cons. constructor.
    + destruct (percolate_ok 0 (S n) (S (S n)) (store a 0 (w, data (a 0))) 0) as (a' & E & Hh & Hp & _); try lia.
      { split.
        - intros p c _ Np Hc Hn. rewrite !store_other by (unfold child_of in Hc; lia). apply I2; auto; lia.
        - intros p c _ Hc0. unfold child_of in Hc0; lia. }
      rewrite E. cbn [bind]. eexists; eexists; split; [reflexivity|].
      split; [split; cbn; [lia|auto]|]. split; [reflexivity|]. cbn [next_pos arr frozen].
      rewrite (abs_cons n a). constructor; [|now apply heap_top_least]. now rewrite Hp, A.
  - (* freeze *)
    unfold assert_then. destruct fr; cbn [negb]; [left; split; reflexivity|]. right. split; [discriminate|].
    eexists; eexists; split; [reflexivity|]. split; [split; cbn; [lia|discriminate]|]. split; [reflexivity|]. constructor.
  - (* thaw *)
    unfold assert_then. destruct fr; [|left; split; reflexivity]. right. split; [discriminate|].
    destruct (heapify_ok n a) as (a' & E & Hh & Hp). rewrite E. cbn [bind].
    eexists; eexists; split; [reflexivity|]. split; [split; cbn; auto|]. split; [reflexivity|].
    constructor; [exact Hp|now apply heap_top_least].
  - (* clear *)
    right. split; [tauto|]. eexists; eexists; split; [reflexivity|].
    split; [split; cbn; [lia|]|].
    { intros _ p c _ Hc Hn; lia. }
    split; [reflexivity|]. constructor.
  - right. split; [tauto|]. eexists; eexists; split; [reflexivity|]. split; [split; auto|]. split; [reflexivity|].
    cbn [next_pos arr frozen].
    pose proof (PNum cmp sz (abs n a) fr) as P. rewrite length_abs in P. exact P.
Qed.

Lemma inv_alloc sz (junk : nat -> entry) : inv (heap_alloc sz junk).
Proof. split; cbn; [lia|]. intros _ p c _ _ Hn; lia. Qed.

Lemma hrun_sound_from p : forall h h' rs, inv h -> hrun cmp h p = Ok (h', rs) ->
  pq_run cmp (size h) (to_pq h) p rs (to_pq h') /\ inv h' /\ size h' = size h.
Proof.
  induction p as [|o p IH]; intros h h' rs I H; cbn [hrun] in H.
  - injection H as <- <-. split; [constructor|auto].
  - destruct (hstep_ok h o I) as [[_ E]|[_ (h1 & r & E & I1 & S1 & P1)]]; rewrite E in H; cbn [bind] in H; [discriminate|].
    destruct (hrun cmp h1 p) as [[h2 rs']|] eqn:E2; cbn [bind] in H; [|discriminate].
    injection H as <- <-. destruct (IH h1 h2 rs' I1 E2) as (A & B & C). rewrite S1 in *.
    split; [econstructor; eauto|]. split; [auto|congruence].
Qed.

Lemma hrun_sound sz (junk : nat -> entry) p (h : heap W D) rs : hrun cmp (heap_alloc sz junk) p = Ok (h, rs) ->
  pq_run cmp sz (mkPQ [] false) p rs (mkPQ (map (arr h) (seq 0 (next_pos h))) (frozen h)).
Proof. intros H. apply (hrun_sound_from p _ _ _ (inv_alloc sz junk) H). Qed.

(** A history stops with an error only at an illegal call. *)
Lemma hrun_progress sz (junk : nat -> entry) p :
  (exists h rs, hrun cmp (heap_alloc sz junk) p = Ok (h, rs)) \/
  (hrun cmp (heap_alloc sz junk) p = Err AssertFail /\
   exists p1 o p2 rs s, p = p1 ++ o :: p2 /\
     pq_run cmp sz (mkPQ [] false) p1 rs s /\ refused sz s o).
Proof.
  assert (K : forall p h, inv h ->
    (exists h' rs, hrun cmp h p = Ok (h', rs)) \/
    (hrun cmp h p = Err AssertFail /\ exists p1 o p2 rs s, p = p1 ++ o :: p2 /\
       pq_run cmp (size h) (to_pq h) p1 rs s /\ refused (size h) s o)).
  { clear p. induction p as [|o p IH]; intros h I; cbn [hrun]; [left; eauto|].
    destruct (hstep_ok h o I) as [[R E]|[_ (h1 & r & E & I1 & S1 & P1)]]; rewrite E; cbn [bind].
    - right. split; [reflexivity|]. exists [], o, p, [], (to_pq h). split; [reflexivity|]. split; [constructor|exact R].
    - destruct (IH h1 I1) as [(h' & rs & E')|(E' & p1 & o' & p2 & rs & s & -> & A & B)]; rewrite E'; cbn [bind]; [left; eauto|].
      right. split; [reflexivity|]. exists (o :: p1), o', p2, (r :: rs), s. split; [reflexivity|].
      rewrite S1 in *. split; [econstructor; eauto|exact B]. }
  exact (K p _ (inv_alloc sz junk)).
Qed.

(** Popping everything yields the stored entries in ascending order. *)
Lemma pop_all_from : forall n h h' rs, inv h -> next_pos h = n ->
  hrun cmp h (repeat HPop n) = Ok (h', rs) ->
  exists l, Permutation l (abs n (arr h)) /\ ascending cmp l /\ rs = map (fun e => RData (snd e)) l /\ next_pos h' = 0.
Proof.
  induction n as [|n IH]; intros h h' rs I Hn H; cbn [repeat hrun] in H.
  - injection H as <- <-. exists []. repeat split; auto.
  - destruct (hstep_ok h HPop I) as [[_ E]|[NR (h1 & r & E & I1 & S1 & P1)]]; rewrite E in H; cbn [bind] in H; [discriminate|].
    destruct (hrun cmp h1 (repeat HPop n)) as [[h2 rs']|] eqn:E2; cbn [bind] in H; [|discriminate].
    injection H as <- <-. unfold to_pq in P1. rewrite Hn in P1.
    remember (mkPQ (abs (S n) (arr h)) (frozen h)) as s eqn:Es. remember HPop as o eqn:Eo.
    remember (mkPQ (abs (next_pos h1) (arr h1)) (frozen h1)) as s' eqn:Es'.
    destruct P1; try discriminate. 
    assert (El : t :: rest = abs (S n) (arr h)) by congruence.
    assert (Ef : false = frozen h) by congruence.
    assert (El' : l' = abs (next_pos h1) (arr h1)) by congruence. clear Es Es'.
    assert (N1 : next_pos h1 = n).
    { apply (f_equal (@length _)) in El, El'. rewrite length_abs in El, El'.
      apply Permutation_length in H. simpl in *. lia. }
    destruct (IH h1 h2 rs' I1 N1 E2) as (l & A & B & C & F).
    exists (t :: l). rewrite N1 in El'. rewrite <- El' in A. split.
    { rewrite <- El. apply perm_skip. now rewrite A. }
    split; [|split; [cbn; now rewrite C|exact F]].
    split; [|exact B].
    assert (FL : first_is_least cmp (t :: rest)).
    { rewrite El. apply heap_top_least. rewrite <- Hn. apply (proj2 I). auto. }
    cbn in *. intros e He. apply FL. rewrite <- H. now rewrite <- A.
Qed.

Lemma pop_all sz (junk : nat -> entry) p (h : heap W D) rs h' out :
  hrun cmp (heap_alloc sz junk) p = Ok (h, rs) ->
  hrun cmp h (repeat HPop (next_pos h)) = Ok (h', out) ->
  exists l, Permutation l (map (arr h) (seq 0 (next_pos h))) /\ ascending cmp l /\
            out = map (fun e => RData (snd e)) l /\ next_pos h' = 0.
Proof.
  intros H H'. destruct (hrun_sound_from p _ _ _ (inv_alloc sz junk) H) as (_ & I & _).
  eapply pop_all_from; eauto.
Qed.
End Proofs.

Lemma cmp_min_preorder : total_preorder cmp_min.
Proof. unfold total_preorder, cmp_min. split; intros; lia. Qed.
Lemma cmp_max_preorder : total_preorder cmp_max.
Proof. unfold total_preorder, cmp_max. split; intros; lia. Qed.
