From Coq Require Import Relations Permutation.
From Verif Require Import Common Text Graph GraphSpec.
Open Scope nat_scope.

Notation elist := (list (list nat)).
Definition esize (e : elist) : nat := list_sum (map (@length nat) e).
Definition eadj (e : elist) (a b : nat) : Prop := In b (nth a e []) \/ In a (nth b e []).
Definition wf (e : elist) : Prop :=
  forall a, a < length e -> NoDup (nth a e []) /\ Forall (fun b => a <= b < length e) (nth a e []).

Lemma wf_adj e a b : wf e -> eadj e a b -> a < length e /\ b < length e.
Proof.
  intros W [H|H].
  - destruct (lt_dec a (length e)) as [L|L]; [|rewrite nth_overflow in H by lia; destruct H].
    split; [exact L|]. destruct (W a L) as (_&F). apply (proj1 (Forall_forall _ _) F b) in H. lia.
  - destruct (lt_dec b (length e)) as [L|L]; [|rewrite nth_overflow in H by lia; destruct H].
    split; [|exact L]. destruct (W b L) as (_&F). apply (proj1 (Forall_forall _ _) F a) in H. lia.
Qed.
Lemma eadj_sym e a b : eadj e a b -> eadj e b a.
Proof. intros [H|H]; [right|left]; exact H. Qed.

(** ** push_back *)
Lemma push_ok e i b : i < length e -> push e i b = Ok (upd e i (nth i e [] ++ [b])).
Proof. intros H. unfold push. rewrite (proj2 (Nat.ltb_lt i (length e)) H). reflexivity. Qed.
Lemma esize_upd : forall (e : elist) i l, i < length e -> esize (upd e i l) + length (nth i e []) = esize e + length l.
Proof.
  unfold esize. induction e as [|x e IH]; intros [|i] l H; cbn [length] in *; try lia; cbn [upd map list_sum nth fold_right].
  - change (fold_right Nat.add 0) with list_sum. lia.
  - specialize (IH i l ltac:(lia)). change (fold_right Nat.add 0) with list_sum in *. lia.
Qed.
Lemma pushes_ok : forall l e, Forall (fun p => fst p < length e) l ->
  exists e', pushes e l = Ok e' /\ length e' = length e /\ esize e' = esize e + length l /\
    forall j, nth j e' [] = nth j e [] ++ map snd (filter (fun p => Nat.eqb (fst p) j) l).
Proof.
  induction l as [|[i b] l IH]; intros e H.
  - exists e. cbn. split; [reflexivity|]. split; [reflexivity|]. split; [lia|]. intros j. rewrite app_nil_r. reflexivity.
  - pose proof (Forall_inv H) as Hi. cbn [fst] in Hi. cbn [pushes]. rewrite push_ok by exact Hi. cbn [bind].
    destruct (IH (upd e i (nth i e [] ++ [b]))) as (e'&E&L&Sz&N).
    { rewrite length_upd. exact (Forall_inv_tail H). }
    exists e'. split; [exact E|]. rewrite length_upd in L. split; [exact L|]. split.
    { rewrite Sz. pose proof (esize_upd e i (nth i e [] ++ [b]) Hi) as U. rewrite app_length in U. cbn [length] in *. lia. }
    intros j. rewrite N. cbn [filter fst]. destruct (Nat.eqb_spec i j) as [->|D].
    + rewrite nth_upd_eq by exact Hi. cbn [map snd]. rewrite <- app_assoc. reflexivity.
    + rewrite nth_upd_neq by exact D. reflexivity.
Qed.
Lemma esize_repeat n : esize (repeat [] n) = 0.
Proof. unfold esize. induction n; [reflexivity|]. cbn. exact IHn. Qed.
Lemma nth_repeat_nil n j : nth j (repeat (@nil nat) n) [] = [].
Proof. revert j. induction n; intros [|j]; cbn; auto. Qed.
Lemma nodup_second j : forall l : list (nat * nat), NoDup l -> NoDup (map snd (filter (fun p => Nat.eqb (fst p) j) l)).
Proof.
  induction l as [|[i b] l IH]; intros H; [constructor|]. inversion H as [|? ? N D]; subst. cbn [filter fst].
  destruct (Nat.eqb_spec i j) as [->|Ne]; [|apply IH, D]. cbn [map snd]. constructor; [|apply IH, D].
  intros I. apply in_map_iff in I. destruct I as ((i'&b')&E&I). cbn [snd] in E. subst b'. apply filter_In in I. destruct I as (I&J).
  cbn [fst] in J. apply Nat.eqb_eq in J. subst i'. apply N, I.
Qed.

Definition pair_in (l : list (nat * nat)) (a b : nat) : Prop := In (a, b) l \/ In (b, a) l.
(** A family without repetitions is a simple graph with exactly the pairs given. *)
Lemma build_ok n l : (0 <= n)%Z -> NoDup l -> Forall (fun p => fst p < snd p /\ (Z.of_nat (snd p) < n)%Z) l ->
  exists g, build n l = Ok g /\ simple n g /\ order g = Z.to_nat n /\ size g = length l /\
    (forall a b, adjacent g a b <-> pair_in l a b).
Proof.
  intros Hn D F. unfold build, fresh. rewrite (proj2 (Z.ltb_ge n 0)) by lia. cbn [bind].
  destruct (pushes_ok l (repeat [] (Z.to_nat n))) as (e&E&L&Sz&N).
  { rewrite repeat_length. eapply Forall_impl; [|exact F]. intros p (A&B). lia. }
  rewrite repeat_length in L. rewrite esize_repeat in Sz.
  assert (N2 : forall j, nth j e [] = map snd (filter (fun p => Nat.eqb (fst p) j) l)) by (intros j; rewrite N, nth_repeat_nil; reflexivity).
  assert (In2 : forall a b, In b (nth a e []) <-> In (a, b) l).
  { intros a b. rewrite N2, in_map_iff. split.
    - intros ((x&y)&E1&I). cbn [snd] in E1. subst y. apply filter_In in I. destruct I as (I&J). cbn [fst] in J. apply Nat.eqb_eq in J. subst x. exact I.
    - intros I. exists (a, b). split; [reflexivity|]. apply filter_In. split; [exact I|]. cbn [fst]. apply Nat.eqb_refl. }
  exists (mkGraph n e). rewrite E. cbn [bind]. split; [reflexivity|].
  assert (Adj : forall a b, adjacent (mkGraph n e) a b <-> pair_in l a b) by (intros a b; unfold adjacent, pair_in; cbn [edges]; rewrite !In2; tauto).
  split; [|split; [exact L|split; [exact Sz|exact Adj]]].
  split; [reflexivity|]. split.
  - split; [unfold order; cbn [numVertex edges]; rewrite L; lia|]. unfold order. cbn [edges]. intros a Ha. split.
    + rewrite N2. apply nodup_second, D.
    + apply Forall_forall. intros b Hb. apply In2 in Hb. pose proof (proj1 (Forall_forall _ _) F _ Hb) as G. cbn [fst snd] in G. rewrite L. lia.
  - intros a H. apply Adj in H. destruct H as [H|H]; pose proof (proj1 (Forall_forall _ _) F _ H) as G; cbn [fst snd] in G; lia.
Qed.

(** ** addEdgeInOrder *)
Lemma existsb_in b l : existsb (Nat.eqb b) l = true <-> In b l.
Proof.
  rewrite existsb_exists. split; [intros (x&I&E); apply Nat.eqb_eq in E; subst; exact I|intros I; exists b; split; [exact I|apply Nat.eqb_refl]].
Qed.
Lemma add_edge_ok e u v : wf e -> u < length e -> v < length e ->
  exists e' fl, add_edge e u v = Ok (e', fl) /\ wf e' /\ length e' = length e /\
    (forall a b, eadj e' a b <-> eadj e a b \/ (a = u /\ b = v) \/ (a = v /\ b = u)) /\
    (fl = true -> ~ eadj e u v /\ esize e' = esize e + 1) /\ (fl = false -> eadj e u v /\ e' = e) /\
    (fl = true -> e' = upd e (Nat.min u v) (nth (Nat.min u v) e [] ++ [Nat.max u v])).
Proof.
  intros W Hu Hv. unfold add_edge.
  assert (G : forall a b, a <= b -> a < length e -> b < length e -> exists e' fl,
     (if a <? length e then if existsb (Nat.eqb b) (nth a e []) then Ok (e, false) else bind (push e a b) (fun e' => Ok (e', true)) else Err OutOfBounds) = Ok (e', fl)
     /\ wf e' /\ length e' = length e /\ (forall c d, eadj e' c d <-> eadj e c d \/ (c = a /\ d = b) \/ (c = b /\ d = a)) /\
     (fl = true -> ~ eadj e a b /\ esize e' = esize e + 1) /\ (fl = false -> eadj e a b /\ e' = e) /\
     (fl = true -> e' = upd e (Nat.min a b) (nth (Nat.min a b) e [] ++ [Nat.max a b]))).
  { intros a b Hab Ha Hb. rewrite (proj2 (Nat.ltb_lt _ _) Ha). destruct (existsb (Nat.eqb b) (nth a e [])) eqn:Ex.
    - apply existsb_in in Ex. exists e, false. split; [reflexivity|]. split; [exact W|]. split; [reflexivity|]. split; [|split; [discriminate|split; [|discriminate]]].
      + intros c d. split; [tauto|]. intros [H|[(->&->)|(->&->)]]; [exact H|left; exact Ex|right; exact Ex].
      + intros _. split; [left; exact Ex|reflexivity].
    - assert (Nb : ~ In b (nth a e [])) by (intros I; apply existsb_in in I; congruence).
      rewrite push_ok by exact Ha. cbn [bind]. eexists. exists true. split; [reflexivity|].
      assert (Nth : forall j, nth j (upd e a (nth a e [] ++ [b])) [] = if Nat.eqb j a then nth a e [] ++ [b] else nth j e []).
      { intros j. destruct (Nat.eqb_spec j a) as [->|D]; [apply nth_upd_eq, Ha|apply nth_upd_neq; congruence]. }
      assert (InN : forall c d, In d (nth c (upd e a (nth a e [] ++ [b])) []) <-> In d (nth c e []) \/ (c = a /\ d = b)).
      { intros c d. rewrite Nth. destruct (Nat.eqb_spec c a) as [->|D].
        - rewrite in_app_iff. cbn [In]. split; [intros [H|[H|[]]]; [left; exact H|right; split; [reflexivity|congruence]]|intros [H|(_&H)]; [left; exact H|right; left; congruence]].
        - split; [tauto|intros [H|(H&_)]; [exact H|congruence]]. }
      split; [|split; [apply length_upd|split; [|split; [|split; [discriminate|]]]]]; [| | |intros _; rewrite Nat.min_l, Nat.max_r by exact Hab; reflexivity].
      + intros c Hc. rewrite length_upd in *. rewrite Nth. destruct (Nat.eqb_spec c a) as [->|D]; [|apply W, Hc].
        destruct (W a Ha) as (ND&F). split.
        * apply (Permutation_NoDup (l := b :: nth a e [])); [apply Permutation_cons_append|]. constructor; assumption.
        * apply Forall_app. split; [exact F|]. constructor; [lia|constructor].
      + intros c d. unfold eadj. rewrite !InN. split; [intros [[H|H]|[H|H]]|intros [[H|H]|[H|H]]]; tauto.
      + intros _. split.
        * intros [H|H]; [exact (Nb H)|]. destruct (W b Hb) as (_&F). pose proof (proj1 (Forall_forall _ _) F _ H) as G. cbv beta in G. assert (a = b) by lia. subst b. exact (Nb H).
        * pose proof (esize_upd e a (nth a e [] ++ [b]) Ha) as U. rewrite app_length in U. cbn [length] in U. lia. }
  destruct (u <=? v) eqn:Le.
  - apply Nat.leb_le in Le. exact (G u v Le Hu Hv).
  - apply Nat.leb_gt in Le. destruct (G v u ltac:(lia) Hv Hu) as (e'&fl&A&B&C&D&E1&E2&E3). exists e', fl. split; [exact A|]. split; [exact B|]. split; [exact C|].
    split; [intros a b; rewrite D; tauto|]. rewrite Nat.min_comm, Nat.max_comm in E3. split; [|split; [|exact E3]]; intros Hf; [destruct (E1 Hf) as (X&Y)|destruct (E2 Hf) as (X&Y)]; (split; [|exact Y]); [intros Z; apply X, eadj_sym, Z|apply eadj_sym, X].
Qed.

(** ** Swapping entries *)
Lemma upd_perm {A} : forall (l : list A) i x d, i < length l -> Permutation (nth i l d :: upd l i x) (x :: l).
Proof.
  induction l as [|y l IH]; intros [|i] x d H; cbn [length] in *; try lia; cbn [nth upd].
  - apply perm_swap.
  - eapply Permutation_trans; [apply perm_swap|]. eapply Permutation_trans; [apply perm_skip, (IH i x d); lia|]. apply perm_swap.
Qed.
Lemma swap_perm l i j : i < length l -> j < length l -> Permutation (swap l i j) l.
Proof.
  intros Hi Hj. unfold swap. set (x := nth i l 0). set (y := nth j l 0).
  assert (P1 : Permutation (x :: upd l i y) (y :: l)) by apply upd_perm, Hi.
  assert (P2 : Permutation (nth j (upd l i y) 0 :: upd (upd l i y) j x) (x :: upd l i y)) by (apply upd_perm; rewrite length_upd; exact Hj).
  assert (E : nth j (upd l i y) 0 = y) by (destruct (Nat.eq_dec i j) as [->|D]; [apply nth_upd_eq, Hj|rewrite nth_upd_neq by exact D; reflexivity]).
  rewrite E in P2. apply (Permutation_cons_inv (a := y)). exact (Permutation_trans P2 P1).
Qed.
Lemma firstn_upd {A} : forall k (l : list A) i x, firstn k (upd l i x) = upd (firstn k l) i x.
Proof.
  induction k as [|k IH]; intros [|y l] i x; [destruct i; reflexivity ..|]. destruct i as [|i]; cbn [firstn upd]; [reflexivity|]. rewrite IH. reflexivity.
Qed.
Lemma nth_firstn_lt {A} : forall k (l : list A) i d, i < k -> nth i (firstn k l) d = nth i l d.
Proof. induction k as [|k IH]; intros [|y l] i d H; [lia|lia|destruct i; reflexivity|]. destruct i as [|i]; cbn [firstn nth]; [reflexivity|]. apply IH. lia. Qed.
Lemma firstn_swap k l i j : i < k -> j < k -> firstn k (swap l i j) = swap (firstn k l) i j.
Proof. intros Hi Hj. unfold swap. rewrite !firstn_upd, !nth_firstn_lt by assumption. reflexivity. Qed.
Lemma firstn_last (l : list nat) k : k < length l -> firstn (S k) l = firstn k l ++ [nth k l 0].
Proof. revert k. induction l as [|x l IH]; intros [|k] H; cbn [length] in *; try lia; [reflexivity|]. cbn [firstn nth app]. rewrite <- IH by lia. reflexivity. Qed.

Lemma nodup_app_r {A} (l l' : list A) : NoDup (l ++ l') -> NoDup l'.
Proof. induction l as [|x l IH]; intros H; [exact H|]. inversion H; subst. apply IH. assumption. Qed.

(** ** The spanning tree *)
Definition ejoined (e : elist) : nat -> nat -> Prop := clos_refl_trans nat (eadj e).
Lemma ejoined_sym e a b : ejoined e a b -> ejoined e b a.
Proof. intros H. induction H as [x y H|x|x y z _ I1 _ I2]; [apply rt_step, eadj_sym, H|apply rt_refl|exact (rt_trans _ _ _ _ _ I2 I1)]. Qed.
Lemma ejoined_mono e e' a b : (forall x y, eadj e x y -> eadj e' x y) -> ejoined e a b -> ejoined e' a b.
Proof. intros M H. induction H as [x y H|x|x y z _ I1 _ I2]; [apply rt_step, M, H|apply rt_refl|exact (rt_trans _ _ _ _ _ I1 I2)]. Qed.

Lemma tree_loop_ok rnd : forall m unused used e pos,
  wf e -> m <= length unused -> used <> [] -> Permutation (firstn m unused ++ used) (seq 0 (length e)) ->
  (forall a b, In a used -> In b used -> ejoined e a b) ->
  exists e', tree_loop rnd m unused used e pos = Ok (e', pos + 2 * m) /\ wf e' /\ length e' = length e /\
    (forall a b, a < length e -> b < length e -> ejoined e' a b) /\
    (forall a b, eadj e a b -> eadj e' a b) /\ ((forall a, ~ eadj e a a) -> forall a, ~ eadj e' a a) /\
    ((forall a b, eadj e a b -> In a used /\ In b used) -> esize e' = esize e + m).
Proof.
  induction m as [|last IH]; intros unused used e pos W L U P J; cbn [tree_loop].
  - exists e. rewrite Nat.add_0_r. split; [reflexivity|]. split; [exact W|]. split; [reflexivity|]. cbn [firstn app] in P. split; [|split; [auto|split; [auto|intros _; lia]]].
    intros a b Ha Hb. apply J; (eapply Permutation_in; [apply Permutation_sym, P|]; apply in_seq; lia).
  - set (u := nth (rnd pos mod length used) used 0). set (i := rnd (pos + 1) mod S last). set (un := swap unused i last). set (v := nth last un 0).
    assert (Lu : length used <> 0) by (destruct used; [congruence|discriminate]).
    assert (Hi : i < S last) by (apply Nat.mod_upper_bound; lia).
    assert (Iu : In u used) by (apply nth_In, Nat.mod_upper_bound, Lu).
    assert (Lun : length un = length unused) by (unfold un, swap; rewrite !length_upd; reflexivity).
    assert (Pun : Permutation (firstn (S last) un) (firstn (S last) unused)).
    { unfold un. rewrite firstn_swap by lia. apply swap_perm; rewrite firstn_length; lia. }
    rewrite firstn_last in Pun by lia. fold v in Pun.
    assert (P' : Permutation (firstn last un ++ (used ++ [v])) (seq 0 (length e))).
    { eapply Permutation_trans; [|exact P]. eapply Permutation_trans; [|apply Permutation_app_tail, Pun]. rewrite <- app_assoc.
      apply Permutation_app_head. apply Permutation_app_comm. }
    assert (ND : NoDup (firstn last un ++ (used ++ [v]))) by (eapply Permutation_NoDup; [apply Permutation_sym, P'|apply seq_NoDup]).
    assert (Rng : forall x, In x (used ++ [v]) -> x < length e).
    { intros x Hx. assert (In x (seq 0 (length e))) as Q by (eapply Permutation_in; [exact P'|]; apply in_app_iff; right; exact Hx). apply in_seq in Q. lia. }
    assert (Nv : ~ In v used).
    { apply nodup_app_r in ND. apply NoDup_remove_2 in ND. rewrite app_nil_r in ND. exact ND. }
    assert (Duv : u <> v) by (intros Q; apply Nv; rewrite <- Q; exact Iu).
    destruct (add_edge_ok e u v W) as (e1&fl&E1&W1&L1&A1&T1&F1&_); [apply Rng, in_app_iff; left; exact Iu|apply Rng, in_app_iff; right; left; reflexivity|].
    rewrite E1. cbn [bind fst].
    destruct (IH un (used ++ [v]) e1 (pos + 2)) as (e'&E&W'&L'&C'&M'&Lf'&S').
    + exact W1.
    + lia.
    + destruct used; discriminate.
    + rewrite L1. exact P'.
    + assert (Jn : forall a, In a used -> ejoined e1 a v).
      { intros a Ha. eapply rt_trans; [eapply ejoined_mono; [|exact (J a u Ha Iu)]; intros x y H; apply A1; left; exact H|]. apply rt_step, A1. right; left; split; reflexivity. }
      intros a b Ha Hb. apply in_app_iff in Ha, Hb. destruct Ha as [Ha|[<-|[]]]; destruct Hb as [Hb|[<-|[]]].
      * eapply ejoined_mono; [|exact (J a b Ha Hb)]. intros x y H. apply A1. left; exact H.
      * apply Jn, Ha.
      * apply ejoined_sym, Jn, Hb.
      * apply rt_refl.
    + exists e'. split; [rewrite E; f_equal; f_equal; lia|]. split; [exact W'|]. split; [lia|]. rewrite L1 in C'. split; [exact C'|]. split; [|split].
      * intros a b H. apply M', A1. left; exact H.
      * intros Lf. apply Lf'. intros a H. apply A1 in H. destruct H as [H|[(->&H)|(->&H)]]; [exact (Lf a H)|congruence|congruence].
      * intros Hin. destruct fl; [destruct (T1 eq_refl) as (_&T)|destruct (F1 eq_refl) as (F&_); exfalso; apply Nv; exact (proj2 (Hin _ _ F))].
        rewrite S'; [lia|]. intros a b H. apply A1 in H. rewrite !in_app_iff. destruct H as [H|[(->&->)|(->&->)]];
          [destruct (Hin a b H); tauto|split; [left; exact Iu|right; left; reflexivity]|split; [right; left; reflexivity|left; exact Iu]].
Qed.
