(** Polarity for lattice functions: identities of indicator functions of cones that hold off
    finitely many hyperplanes become, for the polar cones, identities modulo functions with a
    period. *)
From Coq Require Import QArith Qfield Lqa.
From Verif Require Import Common ZMat PipedSpec PipedProofs PipedProofs3 ConeSpec ExpSpec ExpProofs3 CountSpec BrionLinear BrionProofs BrionProofs2 EulerProofs.
Open Scope Q_scope.

Lemma dotq_ext N x x' y y' : (forall k, (k < N)%nat -> x k == x' k) -> (forall k, (k < N)%nat -> y k == y' k) -> dotq N x y == dotq N x' y'.
Proof. intros A B. unfold dotq. apply sumq_ext. intros k Hk. rewrite (A k Hk), (B k Hk). reflexivity. Qed.
Lemma dotq_comm N x y : dotq N x y == dotq N y x.
Proof. unfold dotq. apply sumq_ext. intros; ring. Qed.
Lemma evr_dot N h x : evr N (0, h) x == dotq N x h.
Proof. unfold evr, dotq. cbn [fst snd]. ring. Qed.
Lemma evr_dot_neg N h x : evr N (0, fun k => - h k) x == - dotq N x h.
Proof. unfold evr, dotq. cbn [fst snd]. rewrite (sumq_ext N _ (fun k => (-1) * (x k * h k))) by (intros; ring). rewrite sumq_scal. ring. Qed.
(** The hyperplane with normal h. *)
Definition flat (h : nat -> Q) (rows : list row) : list row := (0, h) :: (0, fun k => - h k) :: rows.
Lemma flat_sat N h rows x : satb N (flat h rows) x = if Qeq_bool (dotq N x h) 0 then satb N rows x else false.
Proof.
  unfold flat, satb. cbn [forallb]. rewrite andb_assoc. destruct (Qeq_bool (dotq N x h) 0) eqn:E.
  - apply Qeq_bool_iff in E. assert (A : Qle_bool 0 (evr N (0, h) x) = true) by (apply Qle_bool_iff; rewrite evr_dot, E; lra).
    assert (B : Qle_bool 0 (evr N (0, fun k => - h k) x) = true) by (apply Qle_bool_iff; rewrite evr_dot_neg, E; lra). rewrite A, B. reflexivity.
  - apply andb_false_intro1. apply not_true_iff_false. intros T. apply andb_true_iff in T as [A B]. apply Qle_bool_iff in A, B. rewrite evr_dot in A. rewrite evr_dot_neg in B.
    assert (dotq N x h == 0) by lra. apply Qeq_bool_iff in H. congruence.
Qed.
Lemma flat_hom h rows : hom rows -> hom (flat h rows).
Proof. intros H c [<-|[<-|Hc]]; [reflexivity|reflexivity|apply H, Hc]. Qed.
Definition off (N : nat) (H : list (nat -> Q)) (x : nat -> Q) : Prop := forall h, In h H -> ~ dotq N x h == 0.
Lemma fsum_neg {A} (f : A -> bool) L : fsum f (map (fun t => ((- fst t)%Z, snd t)) L) = (- fsum f L)%Z.
Proof. induction L as [|t L IH]; [reflexivity|]. cbn [map]. rewrite !fsum_cons, IH. cbn [fst snd]. ring. Qed.
Lemma fsum_none {A} (f : A -> bool) L : (forall t, In t L -> f (snd t) = false) -> fsum f L = 0%Z.
Proof. intros H. unfold fsum. apply lsum_zeros. intros t Ht. rewrite (H t Ht). apply Z.mul_0_r. Qed.
Lemma hyper_fix N H : forall L, Forall (fun t => hom (snd t)) L -> (forall x, off N H x -> fsum (fun r => satb N r x) L = 0%Z) ->
  exists M, Forall (fun t => hom (snd t)) M /\ (forall t, In t M -> exists h, In h H /\ forall x, satb N (snd t) x = true -> dotq N x h == 0) /\ forall x, fsum (fun r => satb N r x) (L ++ M) = 0%Z.
Proof.
  induction H as [|h H IH]; intros L HL E.
  - exists []. split; [constructor|]. split; [intros t []|]. intros x. rewrite app_nil_r. apply E. intros h [].
  - set (Lh := map (fun t => ((- fst t)%Z, flat h (snd t))) L).
    assert (SH : forall x, fsum (fun r => satb N r x) Lh = if Qeq_bool (dotq N x h) 0 then (- fsum (fun r => satb N r x) L)%Z else 0%Z).
    { intros x. unfold Lh. rewrite <- fsum_neg. destruct (Qeq_bool (dotq N x h) 0) eqn:EQ.
      - clear -EQ. induction L as [|t L IH]; [reflexivity|]. cbn [map]. rewrite !fsum_cons, IH. cbn [fst snd]. rewrite flat_sat, EQ. reflexivity.
      - apply fsum_none. intros t Ht. apply in_map_iff in Ht as (u & <- & _). cbn [snd]. rewrite flat_sat, EQ. reflexivity. }
    destruct (IH (L ++ Lh)) as (M & M1 & M2 & M3).
    + apply Forall_app. split; [exact HL|]. unfold Lh. apply Forall_map. revert HL. apply Forall_impl. intros t Ht. cbn [snd]. now apply flat_hom.
    + intros x OX. rewrite fsum_app, SH. destruct (Qeq_bool (dotq N x h) 0) eqn:EQ; [lia|]. rewrite E; [reflexivity|]. intros g [<-|Hg]; [intros Z0; apply Qeq_bool_iff in Z0; congruence|now apply OX].
    + exists (Lh ++ M). split; [|split].
      * apply Forall_app. split; [|exact M1]. unfold Lh. apply Forall_map. revert HL. apply Forall_impl. intros t Ht. cbn [snd]. now apply flat_hom.
      * intros t Ht. apply in_app_iff in Ht as [Ht|Ht].
        -- unfold Lh in Ht. apply in_map_iff in Ht as (u & <- & _). exists h. split; [now left|]. intros x Sx. cbn [snd] in Sx. rewrite flat_sat in Sx. destruct (Qeq_bool (dotq N x h) 0) eqn:EQ; [now apply Qeq_bool_iff|discriminate].
        -- destruct (M2 t Ht) as (g & Hg & K). exists g. split; [now right|exact K].
      * intros x. rewrite app_assoc. apply M3.
Qed.

Definition at_ (v : nat -> Q) (x : list Z) : nat -> Q := fun k => zpoint x k - v k.
Lemma at_period n v h x : length x = n -> (forall k, (k < n)%nat -> at_ v (vsub x (ilist n (fun k => nth k h 0%Z))) k == at_ v x k - zpoint h k).
Proof.
  intros Lx k Hk. unfold at_, zpoint. rewrite vsub_nth by (unfold ilist; rewrite map_length, seq_length; exact Lx). rewrite ilist_nth by exact Hk. unfold Z.sub. rewrite inject_Z_plus, inject_Z_opp. ring.
Qed.
Theorem polar_negl n v (H : list (list Z)) L : Forall (fun t => hom (snd t)) L -> (forall h, In h H -> exists k, (k < n)%nat /\ nth k h 0%Z <> 0%Z) ->
  (forall x, off n (map zpoint H) x -> fsum (fun r => satb n r x) L = 0%Z) -> negl n (fun x => fsum (polb n (at_ v x)) L).
Proof.
  intros HL PH E. destruct (hyper_fix n (map zpoint H) L HL E) as (M & M1 & M2 & M3).
  assert (P : forall y, (fsum (polb n y) L = - fsum (polb n y) M)%Z).
  { intros y. pose proof (polarity n (L ++ M) (proj2 (Forall_app _ _ _) (conj HL M1)) M3 y) as P. rewrite fsum_app in P. lia. }
  apply (negl_ext n (fun x => (-1) * fsum (polb n (at_ v x)) M)%Z); [intros x _; rewrite P; lia|]. apply negl_scale. unfold fsum. apply (negl_lsum n (fun t x => (fst t * b2z (polb n (at_ v x) (snd t)))%Z)).
  intros t Ht. destruct (M2 t Ht) as (g & Hg & K). apply in_map_iff in Hg as (h & <- & Hh). apply negl_scale. apply (negl_period n (ilist n (fun k => nth k h 0%Z))).
  - destruct (PH h Hh) as (k & Hk & Nk). split; [unfold ilist; now rewrite map_length, seq_length|]. exists k. split; [exact Hk|]. now rewrite ilist_nth.
  - intros x Lx. f_equal. rewrite Forall_forall in M1. specialize (M1 t Ht). apply eq_iff_eq_true. rewrite !polb_iff by exact M1.
    assert (D : forall y, satb n (snd t) y = true -> dotq n y (at_ v (vsub x (ilist n (fun k => nth k h 0%Z)))) == dotq n y (at_ v x)).
    { intros y Sy. specialize (K y Sy). rewrite (dotq_ext n y y _ (fun k => at_ v x k - zpoint h k)) by (first [intros; reflexivity | apply at_period; exact Lx]). unfold dotq in *.
      rewrite (sumq_ext n _ (fun k => y k * at_ v x k + (-1) * (y k * zpoint h k))) by (intros; ring). rewrite sumq_add, sumq_scal, K. ring. }
    split; intros A y Sy; specialize (A y Sy); [rewrite D in A by exact Sy|rewrite D by exact Sy]; exact A.
Qed.

(** ** Generated cones *)
Lemma sumq_split n m f : sumq (n + m) f == sumq n f + sumq m (fun k => f (n + k)%nat).
Proof. induction m as [|m IH]; [rewrite Nat.add_0_r; cbn [sumq]; ring|]. rewrite Nat.add_succ_r. cbn [sumq]. rewrite IH. ring. Qed.
Definition gen0 (n : nat) (V : list (list Z)) : list row :=
  map (fun j => (0, fun k => if Nat.eqb k (n + j) then 1 else 0)) (seq 0 (length V)) ++
  flat_map (fun i => flat (fun k => if Nat.eqb k i then 1 else if (k <? n)%nat then 0 else - inject_Z (vat V (k - n) i)) []) (seq 0 n).
Lemma gen0_hom n V : hom (gen0 n V).
Proof.
  intros c Hc. apply in_app_iff in Hc as [Hc|Hc]; [apply in_map_iff in Hc as (j & <- & _); reflexivity|]. apply in_flat_map in Hc as (i & _ & Hc). revert Hc. apply flat_hom. intros d [].
Qed.
Lemma gen0_ok n V z : satb (n + length V) (gen0 n V) z = true <-> (forall j, (j < length V)%nat -> 0 <= z (n + j)%nat) /\ forall i, (i < n)%nat -> z i == sumq (length V) (fun k => z (n + k)%nat * inject_Z (vat V k i)).
Proof.
  set (m := length V).
  assert (D : forall i, (i < n)%nat -> dotq (n + m) z (fun k => if Nat.eqb k i then 1 else if (k <? n)%nat then 0 else - inject_Z (vat V (k - n) i)) == z i - sumq m (fun k => z (n + k)%nat * inject_Z (vat V k i))).
  { intros i Hi. unfold dotq. rewrite sumq_split. rewrite (sumq_single n _ i Hi); [|intros k Hk Nk; rewrite (proj2 (Nat.eqb_neq k i) Nk), (proj2 (Nat.ltb_lt k n) Hk); ring]. rewrite Nat.eqb_refl.
    rewrite (sumq_ext m _ (fun k => (-1) * (z (n + k)%nat * inject_Z (vat V k i)))); [rewrite sumq_scal; ring|]. intros k Hk. rewrite (proj2 (Nat.eqb_neq (n + k) i)) by lia. rewrite (proj2 (Nat.ltb_ge (n + k) n)) by lia. replace (n + k - n)%nat with k by lia. ring. }
  assert (L : forall j, (j < m)%nat -> evr (n + m) (0, fun k => if Nat.eqb k (n + j) then 1 else 0) z == z (n + j)%nat).
  { intros j Hj. rewrite evr_dot. unfold dotq. rewrite (sumq_single (n + m) _ (n + j)%nat); [rewrite Nat.eqb_refl; ring|lia|]. intros k Hk Nk. rewrite (proj2 (Nat.eqb_neq k (n + j)) Nk). ring. }
  unfold gen0. fold m. rewrite satb_iff. split.
  - intros H. split.
    + intros j Hj. rewrite <- L by exact Hj. apply H, in_app_iff. left. apply (in_map (fun j => (0, fun k => if Nat.eqb k (n + j) then 1 else 0))). apply in_seq. lia.
    + intros i Hi. specialize (D i Hi).
      assert (A : satb (n + m) (flat (fun k => if Nat.eqb k i then 1 else if (k <? n)%nat then 0 else - inject_Z (vat V (k - n) i)) []) z = true).
      { apply satb_iff. intros c Hc. apply H, in_app_iff. right. apply in_flat_map. exists i. split; [apply in_seq; lia|exact Hc]. }
      rewrite flat_sat in A. destruct (Qeq_bool _ 0) eqn:Q0; [|discriminate]. apply Qeq_bool_iff in Q0. rewrite D in Q0. lra.
  - intros [P E] c Hc. apply in_app_iff in Hc as [Hc|Hc].
    + apply in_map_iff in Hc as (j & <- & Hj). apply in_seq in Hj. rewrite L by lia. apply P. lia.
    + apply in_flat_map in Hc as (i & Hi & Hc). apply in_seq in Hi. specialize (D i ltac:(lia)). specialize (E i ltac:(lia)).
      assert (A : satb (n + m) (flat (fun k => if Nat.eqb k i then 1 else if (k <? n)%nat then 0 else - inject_Z (vat V (k - n) i)) []) z = true).
      { rewrite flat_sat. assert (Q0 : Qeq_bool (dotq (n + m) z (fun k => if Nat.eqb k i then 1 else if (k <? n)%nat then 0 else - inject_Z (vat V (k - n) i))) 0 = true) by (apply Qeq_bool_iff; rewrite D, E; ring). rewrite Q0. reflexivity. }
      rewrite satb_iff in A. apply A, Hc.
Qed.
Definition gen_rows (n : nat) (V : list (list Z)) : list row := fms (seq n (length V)) (gen0 n V).
Lemma gen_hom n V : hom (gen_rows n V).
Proof. apply fms_hom, gen0_hom. Qed.
Lemma gen_big n V x : satb (n + length V) (gen_rows n V) x = true <-> in_gen n V x.
Proof.
  unfold gen_rows. rewrite fms_ok by (intros k Hk; apply in_seq in Hk; lia). split.
  - intros (z & E & S0). apply gen0_ok in S0 as [P Z0]. exists (fun k => z (n + k)%nat). split; [exact P|]. intros i Hi. rewrite <- (Z0 i Hi). symmetry. apply E. rewrite in_seq. lia.
  - intros (a & P & E). exists (fun k => if (k <? n)%nat then x k else if (k <? n + length V)%nat then a (k - n)%nat else x k). split.
    + intros i Ni. rewrite in_seq in Ni. destruct (Nat.ltb_spec i n) as [H|H]; [reflexivity|]. destruct (Nat.ltb_spec i (n + length V)) as [H2|H2]; [lia|reflexivity].
    + apply gen0_ok. assert (A : forall k, (k < length V)%nat -> (if (n + k <? n)%nat then x (n + k)%nat else if (n + k <? n + length V)%nat then a (n + k - n)%nat else x (n + k)%nat) = a k).
      { intros k Hk. rewrite (proj2 (Nat.ltb_ge (n + k) n)) by lia. rewrite (proj2 (Nat.ltb_lt (n + k) (n + length V))) by lia. f_equal. lia. }
      split; [intros j Hj; rewrite A by exact Hj; apply P, Hj|]. intros i Hi. rewrite (proj2 (Nat.ltb_lt i n) Hi), (E i Hi). apply sumq_ext. intros k Hk. rewrite A by exact Hk. reflexivity.
Qed.
Lemma in_gen_ext n V x y : (forall i, (i < n)%nat -> x i == y i) -> in_gen n V x -> in_gen n V y.
Proof. intros E (a & P & H). exists a. split; [exact P|]. intros i Hi. rewrite <- (E i Hi). apply H, Hi. Qed.
Lemma gen_ok n V x : satb n (gen_rows n V) x = true <-> in_gen n V x.
Proof.
  set (x0 := fun k => if (k <? n)%nat then x k else 0).
  assert (E : satb (n + length V) (gen_rows n V) x0 = satb n (gen_rows n V) x).
  { unfold satb. induction (gen_rows n V) as [|c l IH]; [reflexivity|]. cbn [forallb]. rewrite IH. f_equal. assert (X : evr (n + length V) c x0 == evr n c x); [|rewrite X; reflexivity].
    unfold evr. rewrite sumq_split. rewrite (sumq_ext n (fun k => x0 k * snd c k) (fun k => x k * snd c k)) by (intros k Hk; unfold x0; rewrite (proj2 (Nat.ltb_lt k n) Hk); reflexivity).
    rewrite (sumq_ext (length V) _ (fun _ => 0)) by (intros k Hk; unfold x0; rewrite (proj2 (Nat.ltb_ge (n + k) n)) by lia; ring). rewrite sumq_0. ring. }
  rewrite <- E, gen_big. split; apply in_gen_ext; intros i Hi; unfold x0; rewrite (proj2 (Nat.ltb_lt i n) Hi); reflexivity.
Qed.
(** The polar of a generated cone. *)
Lemma gen_polar n V y : polb n y (gen_rows n V) = true <-> below n V y.
Proof.
  rewrite polb_iff by apply gen_hom. split.
  - intros H r Hr. apply (In_nth _ _ []) in Hr as (j & Hj & E). change (dotq n y (zpoint r) <= 0). rewrite dotq_comm. apply H. apply gen_ok. exists (fun k => if Nat.eqb k j then 1 else 0). split; [intros k _; destruct (Nat.eqb k j); lra|].
    intros i _. rewrite (sumq_single (length V) _ j Hj) by (intros k _ Nk; rewrite (proj2 (Nat.eqb_neq k j) Nk); ring). rewrite Nat.eqb_refl. unfold zpoint, vat. rewrite E. ring.
  - intros H x Sx. apply gen_ok in Sx as (a & P & E). unfold dotq. rewrite (sumq_ext n _ (fun i => sumq (length V) (fun k => a k * (y i * inject_Z (vat V k i))))).
    + rewrite sumq_swap. assert (A : forall m f, (forall k, (k < m)%nat -> f k <= 0) -> sumq m f <= 0) by (clear; induction m as [|m IH]; intros f Hf; cbn [sumq]; [lra|]; pose proof (IH f (fun k Hk => Hf k ltac:(lia))); pose proof (Hf m ltac:(lia)); lra).
      apply A. intros k Hk. rewrite sumq_scal. specialize (H (nth k V []) ltac:(apply nth_In, Hk)). change (dotq n y (zpoint (nth k V [])) <= 0) in H. specialize (P k Hk). change (sumq n (fun i => y i * inject_Z (vat V k i))) with (dotq n y (zpoint (nth k V []))). nra.
    + intros i Hi. rewrite (E i Hi), Qmult_comm, <- sumq_scal. apply sumq_ext. intros; ring.
Qed.
