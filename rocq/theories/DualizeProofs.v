(** Proofs about dualization. *)
From Coq Require Import QArith Lqa.
From Verif Require Import Common ZMat Hermite HermiteProofs Det DetProofs RatVec RatVecSpec Util UtilProofs Piped PipedSpec PipedProofs PipedProofs2 PipedProofs3 PipedProofs4 P_Piped OmegaProofs3 BrionProofs2 BrionProofs4 BrionProofs5 EulerProofs ConeSpec ConeProofs BarvinokProofs3 CountSpec TriangSpec TriangProofs VertexCones VertexConesSpec NormalizeSpec Dualize DualizeSpec.
Open Scope Q_scope.

(* Farkas *)
Lemma sumq_nonpos n f : (forall k, (k < n)%nat -> f k <= 0) -> sumq n f <= 0.
Proof. intros H. rewrite <- (sumq_0 n). now apply sumq_le. Qed.
Lemma gen_dot n W y r : (forall w, In w W -> sumq n (fun k => zpoint w k * r k) <= 0) -> in_gen n W y -> sumq n (fun k => y k * r k) <= 0.
Proof.
  intros H (a & A0 & A). rewrite (sumq_ext n _ (fun k => sumq (length W) (fun j => a j * (zpoint (nth j W []) k * r k)))).
  2: { intros k Hk. rewrite (A k Hk). rewrite Qmult_comm, <- sumq_scal. apply sumq_ext. intros j Hj. unfold zpoint, vat. ring. }
  rewrite sumq_swap. apply sumq_nonpos. intros j Hj. rewrite sumq_scal. specialize (H (nth j W []) (nth_In _ _ Hj)). specialize (A0 j Hj). nra.
Qed.
Lemma below_gen n V W y : (forall w, In w W -> below n V (zpoint w)) -> in_gen n W y -> below n V y.
Proof. intros H G r Hr. apply (gen_dot n W y (zpoint r)); [|exact G]. intros w Hw. exact (H w Hw r Hr). Qed.
Lemma farkas n V x : in_gen n V x <-> forall y, below n V y -> sumq n (fun k => x k * y k) <= 0.
Proof.
  split.
  - intros G y B. apply (gen_dot n V x y); [|exact G]. intros w Hw. specialize (B w Hw). rewrite (sumq_ext n _ (fun k => y k * zpoint w k)); [exact B|]. intros; ring.
  - intros H. apply gen_ok, satb_iff. intros c Hc. apply Qnot_lt_le. intros L. pose proof (gen_hom n V c Hc) as H0.
    specialize (H (fun k => - snd c k)). unfold evr in L. rewrite H0 in L.
    assert (B : below n V (fun k => - snd c k)).
    { intros r Hr. assert (G : in_gen n V (zpoint r)). { apply gen_iff. exists [(1, r)]. split; [intros p [<-|[]]; cbn; split; [lra|exact Hr]|]. intros i Hi. unfold mix. cbn. ring. }
      apply gen_ok in G. rewrite satb_iff in G. specialize (G c Hc). unfold evr in G. rewrite H0 in G. rewrite (sumq_ext n _ (fun k => (-1) * (zpoint r k * snd c k))) by (intros; ring). rewrite sumq_scal. lra. }
    specialize (H B). rewrite (sumq_ext n _ (fun k => (-1) * (x k * snd c k))) in H by (intros; ring). rewrite sumq_scal in H. lra.
Qed.
(* the polar of the polar *)
Lemma gen_one n W w : In w W -> in_gen n W (zpoint w).
Proof. intros H. apply gen_iff. exists [(1, w)]. split; [intros p [<-|[]]; cbn; split; [lra|exact H]|]. intros i Hi. unfold mix. cbn. ring. Qed.
Lemma bipolar_gen n V W L x : polar_of n V W L -> (in_gen n V x <-> below n (with_lines W L) x).
Proof.
  intros P. rewrite farkas. split.
  - intros H w Hw. apply H, P, gen_one, Hw.
  - intros B y Hy. apply P in Hy. rewrite (sumq_ext n _ (fun k => y k * x k)) by (intros; ring). apply (gen_dot n (with_lines W L) y x); [|exact Hy]. intros w Hw. specialize (B w Hw). rewrite (sumq_ext n _ (fun k => x k * zpoint w k)); [exact B|]. intros; ring.
Qed.
Lemma zpoint_opp w k : zpoint (map Z.opp w) k == - zpoint w k.
Proof. unfold zpoint. rewrite (map_nth Z.opp w 0%Z k : nth k (map Z.opp w) 0%Z = _). rewrite inject_Z_opp. reflexivity. Qed.
Lemma below_lines n W L x : below n (with_lines W L) x <-> below n W x /\ forall e, In e L -> sumq n (fun k => x k * zpoint e k) == 0.
Proof.
  unfold with_lines. split.
  - intros H. split; [intros w Hw; apply H, in_or_app; now left|]. intros e He. assert (A := H e ltac:(apply in_or_app; right; apply in_or_app; now left)). assert (B := H (map Z.opp e) ltac:(apply in_or_app; right; apply in_or_app; right; now apply in_map)).
    rewrite (sumq_ext n _ (fun k => (-1) * (x k * zpoint e k))) in B by (intros; rewrite zpoint_opp; ring). rewrite sumq_scal in B. lra.
  - intros (A & B) w Hw. apply in_app_or in Hw as [Hw|Hw]; [now apply A|]. apply in_app_or in Hw as [Hw|Hw]; [rewrite (B w Hw); lra|]. apply in_map_iff in Hw as (e & <- & He).
    rewrite (sumq_ext n _ (fun k => (-1) * (x k * zpoint e k))) by (intros; rewrite zpoint_opp; ring). rewrite sumq_scal, (B e He). lra.
Qed.

(* the lifted cone *)
Section Lift.
Context (n : nat) (V : list (list Z)).
Let m := length V.
Definition LC : (nat -> Q) -> Prop := in_signed_cone (lifted V) (n + m)%nat (repeat true m ++ repeat false n)%list.
Definition last_of (z : nat -> Q) : nat -> Q := fun k => z (m + k)%nat.
Definition val (i : nat) (y : nat -> Q) : Q := sumq n (fun k => y k * zpoint (nth i V []) k).
Lemma lifted_row i z : (i < m)%nat -> sumq (n + m) (fun k => inject_Z (nth k (map (fun j => if Nat.eqb j i then 1%Z else 0%Z) (seq 0 m) ++ nth i V [])%list 0%Z) * z k) == z i + val i (last_of z).
Proof.
  intros Hi. rewrite Nat.add_comm, sumq_split.
  assert (P : forall k, (k < m)%nat -> (nth k (map (fun j => if Nat.eqb j i then 1%Z else 0%Z) (seq 0 m) ++ nth i V []) 0 = if Nat.eqb k i then 1 else 0)%Z).
  { intros k Hk. rewrite app_nth1 by (now rewrite map_length, seq_length). now rewrite nth_map_seq. }
  rewrite (sumq_single m _ i Hi); [|intros k Hk N; rewrite (P k Hk); apply Nat.eqb_neq in N; rewrite N; change (inject_Z 0) with 0; ring].
  rewrite (P i Hi), Nat.eqb_refl. change (inject_Z 1) with 1. rewrite (sumq_ext n _ (fun k => last_of z k * zpoint (nth i V []) k)); [unfold val; ring|].
  intros k Hk. rewrite app_nth2 by (rewrite map_length, seq_length; lia). rewrite map_length, seq_length. replace (m + k - m)%nat with k by lia. unfold last_of, zpoint. ring.
Qed.
Lemma sign_lift k : (k < n + m)%nat -> (nth k (repeat true m ++ repeat false n) false = true <-> (k < m)%nat).
Proof.
  intros Hk. destruct (Nat.lt_ge_cases k m) as [H|H].
  - rewrite app_nth1 by (rewrite repeat_length; lia). rewrite (nth_indep _ false true) by (rewrite repeat_length; lia). rewrite nth_repeat. tauto.
  - rewrite app_nth2 by (rewrite repeat_length; lia). rewrite nth_repeat. split; [discriminate|lia].
Qed.
Lemma in_LC z : LC z <-> forall i, (i < m)%nat -> z i == - val i (last_of z) /\ 0 <= z i.
Proof.
  split.
  - intros (E & N) i Hi. split.
    + assert (X := lifted_row i z Hi). rewrite E in X; [lra|]. unfold lifted. fold m. apply in_map_iff. exists i. split; [reflexivity|]. apply in_seq. lia.
    + apply N; [lia|]. apply sign_lift; lia.
  - intros H. split.
    + intros a Ha. unfold lifted in Ha. fold m in Ha. apply in_map_iff in Ha as (i & <- & Hi). apply in_seq in Hi. rewrite (lifted_row i z ltac:(lia)). destruct (H i ltac:(lia)) as (E & _). lra.
    + intros k Hk S0. apply sign_lift in S0; [|exact Hk]. now apply H.
Qed.
Definition up (y : nat -> Q) : nat -> Q := fun k => if Nat.ltb k m then - val k y else y (k - m)%nat.
Lemma up_last y k : last_of (up y) k = y k.
Proof. unfold last_of, up. replace (Nat.ltb (m + k) m) with false by (symmetry; apply Nat.ltb_ge; lia). f_equal. lia. Qed.
Lemma val_ext i x y : (forall k, (k < n)%nat -> x k == y k) -> val i x == val i y.
Proof. intros H. apply sumq_ext. intros k Hk. now rewrite (H k Hk). Qed.
Lemma up_in y : below n V y -> LC (up y).
Proof.
  intros B. apply in_LC. intros i Hi. assert (E : up y i = - val i y) by (unfold up; apply Nat.ltb_lt in Hi; now rewrite Hi). rewrite E. split.
  - rewrite (val_ext i (last_of (up y)) y); [reflexivity|]. intros k _. now rewrite up_last.
  - specialize (B (nth i V []) (nth_In _ _ Hi)). unfold val. lra.
Qed.
Lemma LC_below z : LC z -> below n V (last_of z).
Proof. intros H r Hr. apply (In_nth _ _ []) in Hr as (i & Hi & <-). apply in_LC with (i := i) in H; [|exact Hi]. change (val i (last_of z) <= 0). lra. Qed.
Lemma LC_up z : LC z -> forall k, (k < n + m)%nat -> z k == up (last_of z) k.
Proof.
  intros H k Hk. unfold up. destruct (Nat.ltb_spec k m) as [L|L]; [now apply in_LC|]. unfold last_of. now replace (m + (k - m))%nat with k by lia.
Qed.
Lemma up_scal q x y : (forall k, (k < n)%nat -> x k == q * y k) -> forall k, (k < n + m)%nat -> up x k == q * up y k.
Proof.
  intros H k Hk. unfold up. destruct (Nat.ltb_spec k m) as [L|L]; [|apply H; lia]. unfold val. rewrite (sumq_ext n _ (fun j => q * (y j * zpoint (nth k V []) j))) by (intros j Hj; rewrite (H j Hj); ring). rewrite sumq_scal. ring.
Qed.
Definition proj1v (r : list Z) : list Z := map (fun j => nth (m + j) r 0%Z) (seq 0 n).
Lemma proj_point r k : (k < n)%nat -> zpoint (proj1v r) k = last_of (zpoint r) k.
Proof. intros H. unfold zpoint, proj1v, last_of. now rewrite nth_map_seq. Qed.
Lemma in_project r vs : In r (project n m vs) <-> exists v, In v vs /\ r = proj1v v.
Proof. unfold project. rewrite <- in_rev, in_map_iff. fold proj1v. split; [intros (v & <- & H); exists v; auto|intros (v & H & ->); exists v; auto]. Qed.
Lemma proj_lines rs sub w : In w (with_lines (project n m rs) (project n m sub)) <-> exists v, In v (with_lines rs sub) /\ w = proj1v v.
Proof.
  assert (OP : forall v, map Z.opp (proj1v v) = proj1v (map Z.opp v)).
  { intros v. unfold proj1v. rewrite map_map. apply map_ext. intros j. symmetry. exact (map_nth Z.opp v 0%Z (m + j)). }
  unfold with_lines. rewrite !in_app_iff, !in_project, in_map_iff. split.
  - intros [(v & H & ->)|[(v & H & ->)|(v & <- & H)]]; [exists v; rewrite !in_app_iff; auto|exists v; rewrite !in_app_iff; auto|]. apply in_project in H as (u & H & ->). exists (map Z.opp u). rewrite !in_app_iff. split; [right; right; now apply in_map|apply OP].
  - intros (v & H & ->). apply in_app_or in H as [H|H]; [left; now exists v|]. apply in_app_or in H as [H|H]; [right; left; now exists v|]. apply in_map_iff in H as (u & <- & H). right. right. exists (proj1v u). split; [apply OP|apply in_project; now exists u].
Qed.
Lemma polar_4ti2 rs sub : (forall z, LC z <-> in_gen (n + m) (with_lines rs sub) z) -> polar_of n V (project n m rs) (project n m sub).
Proof.
  intros G y. split.
  - intros B. apply up_in, G in B. destruct B as (a & A0 & A). apply gen_iff. exists (map (fun k => (a k, proj1v (nth k (with_lines rs sub) []))) (seq 0 (length (with_lines rs sub)))). split.
    + intros p Hp. apply in_map_iff in Hp as (k & <- & Hk). apply in_seq in Hk. cbn [fst snd]. split; [apply A0; lia|]. apply proj_lines. exists (nth k (with_lines rs sub) []). split; [apply nth_In; lia|reflexivity].
    + intros i Hi. rewrite (mix_seq (fun k => (a k, proj1v (nth k (with_lines rs sub) [])))). rewrite <- (up_last y i). unfold last_of. rewrite (A (m + i)%nat) by lia. apply sumq_ext. intros k Hk. cbn [fst snd]. rewrite (proj_point _ i Hi). reflexivity.
  - apply below_gen. intros w Hw. apply proj_lines in Hw as (v & Hv & ->). intros r Hr. assert (X := LC_below (zpoint v) (proj2 (G _) (gen_one _ _ _ Hv)) r Hr). rewrite (sumq_ext n _ (fun k => last_of (zpoint v) k * zpoint r k)); [exact X|]. intros k Hk. now rewrite proj_point.
Qed.
(* extreme rays *)
Lemma spans_pointed : spans n V -> pointed LC (n + m).
Proof.
  intros Sp z H1 H2. assert (Z0 : forall k, (k < n)%nat -> last_of z k == 0).
  { apply Sp. intros r Hr. apply LC_below in H1, H2. specialize (H1 r Hr). specialize (H2 r Hr). unfold pairing. change (last_of (fun k => - z k)) with (fun k => - last_of z k) in H2. rewrite (sumq_ext n _ (fun k => (-1) * (last_of z k * zpoint r k))) in H2 by (intros; ring). rewrite sumq_scal in H2. lra. }
  intros k Hk. rewrite (LC_up z H1 k Hk). unfold up. destruct (Nat.ltb_spec k m) as [L|L]; [|apply Z0; lia]. unfold val. rewrite (sumq_ext n _ (fun _ => 0)) by (intros j Hj; rewrite (Z0 j Hj); ring). rewrite sumq_0. ring.
Qed.
Lemma extreme_down z : extreme LC (n + m) z -> extreme (below n V) n (last_of z).
Proof.
  intros (H & N & E). split; [now apply LC_below|]. split.
  - intros Z0. apply N. intros k Hk. rewrite (LC_up z H k Hk). unfold up. destruct (Nat.ltb_spec k m) as [L|L]; [|apply Z0; lia]. unfold val. rewrite (sumq_ext n _ (fun _ => 0)) by (intros j Hj; rewrite (Z0 j Hj); ring). rewrite sumq_0. ring.
  - intros x y Bx By S0. destruct (E (up x) (up y) (up_in x Bx) (up_in y By)) as (q & Hq).
    + intros k Hk. rewrite (LC_up z H k Hk). unfold up. destruct (Nat.ltb_spec k m) as [L|L]; [|apply S0; lia]. unfold val. rewrite (sumq_ext n _ (fun j => x j * zpoint (nth k V []) j + y j * zpoint (nth k V []) j)) by (intros j Hj; rewrite (S0 j Hj); ring). rewrite sumq_add. ring.
    + exists q. intros k Hk. rewrite <- (up_last x k). apply Hq. lia.
Qed.
Lemma extreme_up y : extreme (below n V) n y -> extreme LC (n + m) (up y).
Proof.
  intros (B & N & E). split; [now apply up_in|]. split.
  - intros Z0. apply N. intros k Hk. rewrite <- (up_last y k). apply Z0. lia.
  - intros x x' Hx Hx' S0. destruct (E (last_of x) (last_of x') (LC_below x Hx) (LC_below x' Hx')) as (q & Hq).
    + intros k Hk. rewrite <- (up_last y k). apply S0. lia.
    + exists q. intros k Hk. rewrite (LC_up x Hx k Hk). apply up_scal; [exact Hq|exact Hk].
Qed.
End Lift.
(* simplicial cones *)
Lemma polar_simplicial n V s : n_vectors n V -> lin_indep n V -> det_and_facets n V = Ok s -> polar_of n V (s_facets s) [].
Proof.
  intros NV LI E y. destruct (det_and_facets_cone_ok n V s NV LI E) as [OK ER]. unfold with_lines. cbn [map app]. rewrite app_nil_r. destruct (facets_dual_to_rays n V NV LI) as (s' & E' & _ & (NF & _ & PR & DP & _) & _). rewrite E in E'. injection E' as <-.
  assert (PD : forall i j, (i < n)%nat -> (j < n)%nat -> sumq n (fun k => zpoint (nth j (s_facets s) []) k * zpoint (nth i V []) k) == inject_Z (if (i =? j)%nat then (- nth j (s_divs s) 0)%Z else 0%Z)).
  { intros i j Hi Hj. rewrite <- (PR i j Hi Hj). clear. induction n as [|m IH]; [reflexivity|]. cbn [sumq sumz]. rewrite inject_Z_plus, IH, inject_Z_mult. unfold zpoint, vat. ring. }
  split.
  - intros B. apply farkas. intros x Bx.
    assert (G : in_gen n V x).
    { rewrite <- ER. apply in_gen_cone; [rewrite ER; apply NV|]. apply (in_cone_iff n s OK). intros i Hi. rewrite phi_origin, phi_dot. apply (Bx (nth i (s_facets s) [])), nth_In. rewrite (proj1 NF). exact Hi. }
    rewrite farkas in G. rewrite (sumq_ext n _ (fun k => x k * y k)) by (intros; ring). now apply G.
  - apply below_gen. intros w Hw r Hr. apply (In_nth _ _ []) in Hw as (j & Hj & <-). apply (In_nth _ _ []) in Hr as (i & Hi & <-). rewrite (proj1 NF) in Hj. rewrite (proj1 NV) in Hi. rewrite (PD i j Hi Hj). change 0 with (inject_Z 0). rewrite <- Zle_Qle. specialize (DP j Hj). destruct (i =? j)%nat; lia.
Qed.
(* cdd *)
Lemma polar_cdd G n V : cdd_contract G (map (map Z.opp) V) n -> spans n V -> polar_of n V (map snd (G (map (map Z.opp) V) n)) [].
Proof.
  intros CC Sp y. destruct CC as (E & P).
  assert (EQ : forall u, (forall a, In a (map (map Z.opp) V) -> 0 <= sumq n (fun k => u k * zpoint a k)) <-> below n V u).
  { intros u. split.
    - intros H r Hr. specialize (H (map Z.opp r) (in_map _ _ _ Hr)). rewrite (sumq_ext n _ (fun k => (-1) * (u k * zpoint r k))) in H by (intros; rewrite zpoint_opp; ring). rewrite sumq_scal in H. lra.
    - intros H a Ha. apply in_map_iff in Ha as (r & <- & Hr). specialize (H r Hr). rewrite (sumq_ext n _ (fun k => (-1) * (u k * zpoint r k))) by (intros; rewrite zpoint_opp; ring). rewrite sumq_scal. lra. }
  assert (PT : pointed (fun y : nat -> Q => forall a, In a (map (map Z.opp) V) -> 0 <= sumq n (fun k => y k * zpoint a k)) n).
  { intros z H1 H2. rewrite EQ in H1. rewrite (EQ (fun k => - z k)) in H2. intros k Hk. apply Sp; [|exact Hk]. intros r Hr. specialize (H1 r Hr). specialize (H2 r Hr). unfold pairing. rewrite (sumq_ext n _ (fun k => (-1) * (z k * zpoint r k))) in H2 by (intros; ring). rewrite sumq_scal in H2. lra. }
  specialize (P PT). rewrite P in E. rewrite <- EQ, E.
  assert (A : map snd (filter (fun p : bool * list Z => negb (fst p)) (G (map (map Z.opp) V) n)) = map snd (G (map (map Z.opp) V) n)).
  { revert P. clear. induction (G (map (map Z.opp) V) n) as [|[[] v] l IH]; intros P; [reflexivity|discriminate P|]. cbn [filter fst negb map snd]. f_equal. apply IH. exact P. }
  rewrite A. reflexivity.
Qed.

(* the system for zsolve *)
Lemma row_int f : forall ks r, mapM (fun k => zz_to_int (nth k f 0%Z)) ks = Ok r -> r = map (fun k => nth k f 0%Z) ks.
Proof.
  induction ks as [|k ks IH]; intros r E; cbn [mapM] in E; [now injection E as <-|]. destruct (zz_to_int (nth k f 0%Z)) as [z|] eqn:E1; [|discriminate E]. cbn [bind] in E. destruct (mapM _ ks) as [r'|] eqn:E2; [|discriminate E]. cbn [bind] in E. injection E as <-. apply zz_to_int_safe in E1 as (-> & _). cbn [map]. now rewrite (IH _ eq_refl).
Qed.
Lemma rows_int n : forall fs rs, mapM (fun f => mapM (fun k => zz_to_int (nth k f 0%Z)) (seq 0 n)) fs = Ok rs -> rs = map (fun f => map (fun k => nth k f 0%Z) (seq 0 n)) fs.
Proof.
  induction fs as [|f fs IH]; intros r E; cbn [mapM] in E; [now injection E as <-|]. destruct (mapM (fun k => zz_to_int (nth k f 0%Z)) (seq 0 n)) as [z|] eqn:E1; [|discriminate E]. cbn [bind] in E. destruct (mapM _ fs) as [r'|] eqn:E2; [|discriminate E]. cbn [bind] in E. injection E as <-. apply row_int in E1 as ->. cbn [map]. now rewrite (IH _ eq_refl).
Qed.
Lemma dot_row n f x : inject_Z (dot n (map (fun k => nth k f 0%Z) (seq 0 n)) x) == sumq n (fun k => zpoint x k * zpoint f k).
Proof.
  unfold dot. assert (H : forall N, (N <= n)%nat -> inject_Z (sumz N (fun k => nth k (map (fun k => nth k f 0%Z) (seq 0 n)) 0 * nth k x 0)%Z) == sumq N (fun k => zpoint x k * zpoint f k)).
  { induction N as [|N IH]; intros L; [reflexivity|]. cbn [sumz sumq]. rewrite inject_Z_plus, IH, nth_map_seq, inject_Z_mult by lia. unfold zpoint. ring. }
  now apply H.
Qed.
Lemma system_solutions n fs es sy x : zsolve_system n fs es = Ok sy -> (solves n sy x <-> length x = n /\ below n fs (zpoint x) /\ forall e, In e es -> sumq n (fun k => zpoint x k * zpoint e k) == 0).
Proof.
  intros E. unfold zsolve_system in E. cbv zeta in E. destruct (mapM _ fs) as [F|] eqn:E1; [|discriminate E]. cbn [bind] in E. destruct (mapM _ es) as [G|] eqn:E2; [|discriminate E]. cbn [bind] in E. injection E as <-. apply rows_int in E1, E2. subst F G. rewrite !map_map.
  unfold solves. split; intros (L & H); (split; [exact L|]).
  - split.
    + intros f Hf. specialize (H (false, map (fun k => nth k f 0%Z) (seq 0 n))). cbn [fst snd] in H. rewrite <- dot_row. change 0 with (inject_Z 0). rewrite <- Zle_Qle. apply H, in_or_app. left. now apply (in_map (fun x => (false, map (fun k => nth k x 0%Z) (seq 0 n)))).
    + intros e He. specialize (H (true, map (fun k => nth k e 0%Z) (seq 0 n))). cbn [fst snd] in H. rewrite <- dot_row. rewrite H; [reflexivity|]. apply in_or_app. right. now apply (in_map (fun x => (true, map (fun k => nth k x 0%Z) (seq 0 n)))).
  - destruct H as (H1 & H2). intros p Hp. apply in_app_or in Hp as [Hp|Hp]; apply in_map_iff in Hp as (f & <- & Hf); cbn [fst snd].
    + rewrite Zle_Qle, dot_row. exact (H1 f Hf).
    + specialize (H2 f Hf). rewrite <- dot_row in H2. change 0 with (inject_Z 0) in H2. now apply inject_Z_injective.
Qed.
