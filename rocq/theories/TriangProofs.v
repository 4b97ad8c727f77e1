(** Cones given by generators; the lower facets of a lifted cone subdivide it. *)
From Coq Require Import QArith Qfield Lqa.
From Verif Require Import Common ZMat Det DetProofs PipedSpec Piped PipedProofs PipedProofs3 ConeSpec CountSpec BrionLinear BrionProofs4 BrionProofs5 TriangSpec.
Open Scope Q_scope.

(** ** Nonnegative combinations as lists *)
Fixpoint mix (L : list (Q * list Z)) (i : nat) : Q := match L with [] => 0 | p :: L' => fst p * zpoint (snd p) i + mix L' i end.
Lemma gen_zero n V : in_gen n V (fun _ => 0).
Proof. exists (fun _ => 0). split; [intros; lra|]. intros i _. rewrite (sumq_ext _ _ (fun _ => 0)), sumq_0; [reflexivity|]. intros. ring. Qed.
Lemma gen_add n V x y : in_gen n V x -> in_gen n V y -> in_gen n V (fun i => x i + y i).
Proof.
  intros (a & A & X) (b & B & Y). exists (fun k => a k + b k). split; [intros k Hk; specialize (A k Hk); specialize (B k Hk); lra|].
  intros i Hi. rewrite (X i Hi), (Y i Hi), <- sumq_add. apply sumq_ext. intros. ring.
Qed.
Lemma gen_ray n V r c : In r V -> 0 <= c -> in_gen n V (fun i => c * zpoint r i).
Proof.
  intros I C. destruct (In_nth _ _ [] I) as (j & Hj & E). exists (fun k => if Nat.eqb k j then c else 0). split; [intros k _; destruct (Nat.eqb k j); lra|].
  intros i Hi. rewrite (sumq_single _ _ j Hj); [rewrite Nat.eqb_refl; unfold vat; rewrite E; reflexivity|]. intros k _ N. rewrite (proj2 (Nat.eqb_neq k j) N). ring.
Qed.
Lemma gen_mix n V L : (forall p, In p L -> 0 <= fst p /\ In (snd p) V) -> in_gen n V (mix L).
Proof.
  induction L as [|p L IH]; intros H; [apply gen_zero|]. cbn [mix]. apply (gen_add n V (fun i => fst p * zpoint (snd p) i) (mix L)).
  - destruct (H p (or_introl eq_refl)). now apply gen_ray.
  - apply IH. intros q Hq. apply H. now right.
Qed.
Lemma mix_seq (f : nat -> Q * list Z) N i : mix (map f (seq 0 N)) i == sumq N (fun k => fst (f k) * zpoint (snd (f k)) i).
Proof.
  assert (App : forall L M, mix (L ++ M) i == mix L i + mix M i) by (induction L as [|p L IH]; intros M; cbn [app mix]; [ring|rewrite IH; ring]).
  induction N as [|N IH]; [reflexivity|]. rewrite seq_S, map_app, App, IH. cbn [map mix sumq plus]. ring.
Qed.
Lemma gen_iff n V x : in_gen n V x <-> exists L, (forall p, In p L -> 0 <= fst p /\ In (snd p) V) /\ forall i, (i < n)%nat -> x i == mix L i.
Proof.
  split.
  - intros (a & A & X). exists (map (fun k => (a k, nth k V [])) (seq 0 (length V))). split.
    + intros p Hp. apply in_map_iff in Hp. destruct Hp as (k & <- & Hk). apply in_seq in Hk. cbn [fst snd]. split; [apply A; lia|apply nth_In; lia].
    + intros i Hi. rewrite (X i Hi), mix_seq. apply sumq_ext. intros. reflexivity.
  - intros (L & H & E). apply (in_gen_ext n V (mix L)); [intros i Hi; symmetry; now apply E|now apply gen_mix].
Qed.
Lemma gen_incl n C V x : incl C V -> in_gen n C x -> in_gen n V x.
Proof. intros I. rewrite !gen_iff. intros (L & H & E). exists L. split; [|exact E]. intros p Hp. destruct (H p Hp). split; auto. Qed.
(** ** Linear forms on combinations *)
Definition form (m : nat) (y x : nat -> Q) : Q := sumq m (fun k => y k * x k).
Lemma form_ext m y x x' : (forall k, (k < m)%nat -> x k == x' k) -> form m y x == form m y x'.
Proof. intros H. apply sumq_ext. intros k Hk. now rewrite H. Qed.
Fixpoint weigh (m : nat) (y : nat -> Q) (L : list (Q * list Z)) : Q := match L with [] => 0 | p :: L' => fst p * pairing m y (snd p) + weigh m y L' end.
Lemma form_mix m y L : form m y (mix L) == weigh m y L.
Proof.
  induction L as [|p L IH]; cbn [mix weigh]; unfold form in *.
  - rewrite (sumq_ext _ _ (fun _ => 0)), sumq_0; [reflexivity|]. intros. ring.
  - rewrite <- IH. unfold pairing. rewrite <- sumq_scal, <- sumq_add. apply sumq_ext. intros. ring.
Qed.
Lemma weigh_pos m y L : (forall p, In p L -> 0 <= fst p) -> (forall p, In p L -> 0 <= pairing m y (snd p)) -> 0 <= weigh m y L.
Proof.
  induction L as [|p L IH]; intros A B; cbn [weigh]; [lra|]. assert (0 <= weigh m y L) by (apply IH; intros q Hq; [apply A|apply B]; now right).
  pose proof (A p (or_introl eq_refl)). pose proof (B p (or_introl eq_refl)). pose proof (Qmult_le_0_compat _ _ H0 H1). lra.
Qed.
(** If the form vanishes on the sum, every vector with a positive coefficient is in the kernel. *)
Lemma weigh_zero m y L : (forall p, In p L -> 0 <= fst p) -> (forall p, In p L -> 0 <= pairing m y (snd p)) -> weigh m y L == 0 ->
  forall p, In p L -> fst p == 0 \/ pairing m y (snd p) == 0.
Proof.
  induction L as [|q L IH]; intros A B E p Hp; [destruct Hp|]. cbn [weigh] in E.
  assert (W : 0 <= weigh m y L) by (apply weigh_pos; intros r Hr; [apply A|apply B]; now right).
  pose proof (A q (or_introl eq_refl)) as Aq. pose proof (B q (or_introl eq_refl)) as Bq. pose proof (Qmult_le_0_compat _ _ Aq Bq) as M.
  destruct Hp as [->|Hp].
  - apply Qmult_integral. lra.
  - apply IH; auto; [intros r Hr; apply A; now right|intros r Hr; apply B; now right|lra].
Qed.
(** ** Pairwise separated lists *)
Fixpoint pairwise {A} (R : A -> A -> Prop) (l : list A) : Prop := match l with [] => True | x :: l' => (forall y, In y l' -> R x y) /\ pairwise R l' end.
Lemma pairwise_app {A} (R : A -> A -> Prop) l m : pairwise R l -> pairwise R m -> (forall x y, In x l -> In y m -> R x y) -> pairwise R (l ++ m).
Proof.
  induction l as [|x l IH]; intros L M H; [exact M|]. destruct L as [L1 L2]. cbn [app pairwise]. split.
  - intros y Hy. apply in_app_iff in Hy. destruct Hy as [Hy|Hy]; [now apply L1|apply H; [now left|exact Hy]].
  - apply IH; auto. intros a b Ha Hb. apply H; [now right|exact Hb].
Qed.
Lemma pairwise_rev {A} (R : A -> A -> Prop) l : (forall x y, R x y -> R y x) -> pairwise R l -> pairwise R (rev l).
Proof.
  intros Sy. induction l as [|x l IH]; intros P; [exact I|]. destruct P as [P1 P2]. cbn [rev]. apply pairwise_app; [now apply IH|cbn; split; auto; intros y []|].
  intros a b Ha [<-|[]]. apply Sy, P1. now apply in_rev.
Qed.
Lemma pairwise_nth {A} (R : A -> A -> Prop) l d : pairwise R l -> forall i j, (i < j)%nat -> (j < length l)%nat -> R (nth i l d) (nth j l d).
Proof.
  induction l as [|x l IH]; intros P i j Hij Hj; [cbn in Hj; lia|]. destruct P as [P1 P2]. destruct j as [|j]; [lia|]. cbn [length] in Hj. destruct i as [|i]; cbn [nth].
  - apply P1, nth_In. lia.
  - apply IH; auto; lia.
Qed.
Lemma pairing_opp n w r : pairing n (fun k => - w k) r == - pairing n w r.
Proof. unfold pairing. setoid_replace (- sumq n (fun k => w k * zpoint r k)) with ((-1) * sumq n (fun k => w k * zpoint r k)) by ring. rewrite <- sumq_scal. apply sumq_ext. intros. ring. Qed.
Lemma separated_sym n C D : separated n C D -> separated n D C.
Proof.
  intros (w & (k & Hk & N) & A & B). exists (fun k => - w k). split; [exists k; split; [exact Hk|lra]|]. split; intros r Hr; rewrite pairing_opp; [pose proof (B r Hr)|pose proof (A r Hr)]; lra.
Qed.
Lemma separated_incl n C D C' D' : incl C' C -> incl D' D -> separated n C D -> separated n C' D'.
Proof. intros I J (w & N & A & B). exists w. split; [exact N|]. split; intros r Hr; auto. Qed.
(** ** Spanning *)
Lemma spans_enough n C : spans n C -> (n <= length C)%nat.
Proof.
  intros Sp. destruct (Nat.le_gt_cases n (length C)) as [H|H]; [exact H|exfalso].
  destruct (kernel_few n (map (fun r => fun k => nth k r 0%Z) C)) as (r & (k & Hk & N) & K); [now rewrite map_length|].
  apply (inject_nz (r k) N). apply (Sp (ivec r)); [|exact Hk]. intros c Hc. apply (K (fun k => nth k c 0%Z)). apply in_map_iff. exists c. auto.
Qed.
Lemma spans_indep n C : length C = n -> spans n C -> lin_indep n C.
Proof.
  intros L Sp. apply det_indep. intros D. rewrite <- det_tr in D. destruct (det_zero_kernel n _ D) as (v & (i & Hi & N) & H).
  apply (inject_nz (v i) N). apply (Sp (fun k => inject_Z (v k))); [|exact Hi]. intros r Hr. destruct (In_nth _ _ [] Hr) as (j & Hj & <-). rewrite L in Hj. specialize (H j Hj).
  unfold pairing, zpoint. rewrite (sumq_ext n _ (fun k => inject_Z (v k * nth k (nth j C []) 0)%Z)) by (intros; now rewrite inject_Z_mult). rewrite sumq_inj.
  change 0 with (inject_Z 0). apply inject_Z_injective. exact H.
Qed.
Lemma indep_spans n C : length C = n -> lin_indep n C -> spans n C.
Proof.
  intros L LI y H k Hk. apply (independent_trivial n (map (fun r => fun i => nth i r 0%Z) C)); [now rewrite map_length| | |exact Hk].
  - intros ks R j Hj. rewrite map_length, L in Hj. apply (LI ks); [|exact Hj]. intros i Hi. specialize (R i Hi). rewrite map_length, L in R. rewrite sumz_zsum, <- R at 1. apply zsum_ext. intros e He.
    f_equal. unfold vat. rewrite (nth_indep _ (fun _ => 0%Z) ((fun r i => nth i r 0%Z) [])) by (rewrite map_length; lia). now rewrite (map_nth (fun r i => nth i r 0%Z)).
  - intros a Ha. apply in_map_iff in Ha. destruct Ha as (r & <- & Hr). exact (H r Hr).
Qed.
(** Separated simplicial cones have disjoint interiors. *)
Lemma separated_open n C D x : n_vectors n C -> lin_indep n C -> n_vectors n D -> separated n C D -> ~ (in_open_cone n origin C x /\ in_open_cone n origin D x).
Proof.
  intros [LC _] LI [LD _] (w & (k0 & Hk0 & N) & A & B) [(a & Pa & Ea) (b & Pb & Eb)].
  assert (WA : form n w x == sumq n (fun k => a k * pairing n w (nth k C []))).
  { unfold form. rewrite (sumq_ext n _ (fun i => sumq n (fun k => a k * (w i * zpoint (nth k C []) i)))).
    - rewrite sumq_swap. apply sumq_ext. intros k Hk. rewrite sumq_scal. reflexivity.
    - intros i Hi. specialize (Ea i Hi). unfold origin in Ea. assert (E : x i == sumq n (fun k => a k * inject_Z (vat C k i))) by (rewrite <- Ea; ring). rewrite E, <- sumq_scal. apply sumq_ext. intros k Hk. unfold vat, zpoint. ring. }
  assert (WB : form n w x == sumq n (fun k => b k * pairing n w (nth k D []))).
  { unfold form. rewrite (sumq_ext n _ (fun i => sumq n (fun k => b k * (w i * zpoint (nth k D []) i)))).
    - rewrite sumq_swap. apply sumq_ext. intros k Hk. rewrite sumq_scal. reflexivity.
    - intros i Hi. specialize (Eb i Hi). unfold origin in Eb. assert (E : x i == sumq n (fun k => b k * inject_Z (vat D k i))) by (rewrite <- Eb; ring). rewrite E, <- sumq_scal. apply sumq_ext. intros k Hk. unfold vat, zpoint. ring. }
  assert (NB : sumq n (fun k => b k * pairing n w (nth k D [])) <= 0).
  { assert (G : forall m, (m <= n)%nat -> sumq m (fun k => b k * pairing n w (nth k D [])) <= 0); [|apply G; lia]. induction m as [|m IH]; intros Hm; cbn [sumq]; [lra|].
    assert (I : In (nth m D []) D) by (apply nth_In; lia). pose proof (B _ I). pose proof (Pb m ltac:(lia)). specialize (IH ltac:(lia)). nra. }
  assert (G : forall m, (m <= n)%nat -> 0 <= sumq m (fun k => a k * pairing n w (nth k C [])) /\ (sumq m (fun k => a k * pairing n w (nth k C [])) == 0 -> forall k, (k < m)%nat -> pairing n w (nth k C []) == 0)).
  { induction m as [|m IH]; intros Hm; cbn [sumq]; [split; [lra|intros; lia]|].
    assert (I : In (nth m C []) C) by (apply nth_In; lia). pose proof (A _ I) as Am. pose proof (Pa m ltac:(lia)) as Pm. destruct (IH ltac:(lia)) as [IH1 IH2].
    assert (M : 0 <= a m * pairing n w (nth m C [])) by (apply Qmult_le_0_compat; lra). split; [lra|]. intros E k Hk. destruct (Nat.eq_dec k m) as [->|Nk].
    - assert (E0 : a m * pairing n w (nth m C []) == 0) by lra. apply Qmult_integral in E0. destruct E0 as [E0|E0]; [lra|exact E0].
    - apply IH2; [lra|lia]. }
  destruct (G n ltac:(lia)) as [G1 G2]. apply N. apply (indep_spans n C LC LI w); [|exact Hk0]. intros r Hr. destruct (In_nth _ _ [] Hr) as (j & Hj & <-). apply G2; [lra|lia].
Qed.
