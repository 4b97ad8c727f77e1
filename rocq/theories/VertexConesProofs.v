(** Vertices and the extreme rays of the homogenization. *)
From Coq Require Import QArith Lqa.
From Verif Require Import Common RatVec RatVecSpec PipedSpec PipedProofs3 OmegaProofs3 BrionProofs4 ConeSpec CountSpec CountProofs6 CountFileSpec VertexCones VertexConesSpec.
Open Scope Z_scope.

Section Lift.
Context (n : nat) (rows : list (list Z)) (LR : forall c, In c rows -> length c = S n).
Let m := length rows.
Let d := (1 + n + m)%nat.
Definition hom (c : list Z) (t : Q) (x : nat -> Q) : Q := (inject_Z (nth 0 c 0%Z) * t + sumq n (fun k => x k * inject_Z (nth (S k) c 0%Z)))%Q.
Definition C : (nat -> Q) -> Prop := in_signed_cone (slack_matrix rows) d (sign_restricted m n).
Definition tail_of (z : nat -> Q) : nat -> Q := fun k => z (m + 1 + k)%nat.
Lemma sign_true k : (k < d)%nat -> (nth k (sign_restricted m n) false = true <-> (k <= m)%nat).
Proof.
  intros Hk. unfold sign_restricted. destruct (Nat.le_gt_cases k m) as [H|H].
  - rewrite app_nth1 by (rewrite repeat_length; lia). rewrite (nth_indep _ false true) by (rewrite repeat_length; lia). rewrite nth_repeat. tauto.
  - rewrite app_nth2 by (rewrite repeat_length; lia). rewrite nth_repeat. split; [discriminate|lia].
Qed.
Definition lrow (i : nat) : list Z := (map (fun j => if Nat.eqb j i then -1 else 0) (seq 0 m) ++ nth i rows [])%list.
Lemma row_sum i z : (i < m)%nat -> (sumq d (fun k => inject_Z (nth k (lrow i) 0%Z) * z k) == hom (nth i rows []) (z m) (tail_of z) - z i)%Q.
Proof.
  intros Hi. replace d with (m + (1 + n))%nat by (unfold d; lia). rewrite sumq_split. rewrite (sumq_split 1 n).
  assert (P : forall k, (k < m)%nat -> (nth k (lrow i) 0 = if Nat.eqb k i then -1 else 0)).
  { intros k Hk. unfold lrow. rewrite app_nth1 by (now rewrite map_length, seq_length). rewrite (nth_indep _ 0 (if Nat.eqb 0 i then -1 else 0)) by (now rewrite map_length, seq_length). rewrite (map_nth (fun j => if Nat.eqb j i then -1 else 0) (seq 0 m) 0%nat k), seq_nth by exact Hk. reflexivity. }
  assert (S1 : forall k, nth (m + k) (lrow i) 0 = nth k (nth i rows []) 0).
  { intros k. unfold lrow. rewrite app_nth2 by (rewrite map_length, seq_length; lia). rewrite map_length, seq_length. f_equal. lia. }
  rewrite (sumq_single m _ i Hi).
  - rewrite (P i Hi), Nat.eqb_refl. cbn [sumq]. rewrite (S1 0%nat), Nat.add_0_r. rewrite (sumq_ext n _ (fun k => tail_of z k * inject_Z (nth (S k) (nth i rows []) 0%Z))%Q).
    + unfold hom. change (inject_Z (-1)) with (-1)%Q. ring.
    + intros k Hk. rewrite (S1 (1 + k)%nat). unfold tail_of. replace (m + (1 + k))%nat with (m + 1 + k)%nat by lia. cbn [Nat.add]. ring.
  - intros k Hk N. rewrite (P k Hk). apply Nat.eqb_neq in N. rewrite N. change (inject_Z 0) with 0%Q. ring.
Qed.
Lemma in_C z : C z <-> (forall i, (i < m)%nat -> (z i == hom (nth i rows []) (z m) (tail_of z))%Q /\ (0 <= z i)%Q) /\ (0 <= z m)%Q.
Proof.
  split.
  - intros [E N]. split.
    + intros i Hi. split.
      * specialize (E (lrow i)). pose proof (row_sum i z Hi) as R. rewrite E in R; [lra|]. unfold slack_matrix. apply in_map_iff. exists i. split; [reflexivity|]. apply in_seq. fold m. lia.
      * apply N; [unfold d; lia|]. apply sign_true; unfold d; lia.
    + apply N; [unfold d; lia|]. apply sign_true; unfold d; lia.
  - intros [H T]. split.
    + intros a Ha. unfold slack_matrix in Ha. apply in_map_iff in Ha as (i & <- & Hi). apply in_seq in Hi. fold m in Hi. apply (Qeq_trans _ _ _ (row_sum i z ltac:(lia))). destruct (H i ltac:(lia)) as [E _]. lra.
    + intros k Hk S0. apply sign_true in S0; [|exact Hk]. destruct (Nat.eq_dec k m) as [->|Ne]; [exact T|]. apply H. lia.
Qed.
(** The point of the cone over (t, x). *)
Definition lift (t : Q) (x : nat -> Q) (k : nat) : Q := if Nat.ltb k m then hom (nth k rows []) t x else if Nat.eqb k m then t else x (k - m - 1)%nat.
Lemma lift_slack t x i : (i < m)%nat -> lift t x i = hom (nth i rows []) t x.
Proof. intros H. unfold lift. apply Nat.ltb_lt in H. now rewrite H. Qed.
Lemma lift_t t x : lift t x m = t.
Proof. unfold lift. rewrite Nat.ltb_irrefl, Nat.eqb_refl. reflexivity. Qed.
Lemma lift_x t x k : lift t x (m + 1 + k)%nat = x k.
Proof. unfold lift. replace (Nat.ltb (m + 1 + k) m) with false by (symmetry; apply Nat.ltb_ge; lia). replace (Nat.eqb (m + 1 + k) m) with false by (symmetry; apply Nat.eqb_neq; lia). f_equal. lia. Qed.
Lemma hom_ext c t x t' x' : (t == t')%Q -> (forall k, (k < n)%nat -> (x k == x' k)%Q) -> (hom c t x == hom c t' x')%Q.
Proof. intros T X. unfold hom. rewrite T. rewrite (sumq_ext n _ (fun k => x' k * inject_Z (nth (S k) c 0%Z))%Q); [reflexivity|]. intros k Hk. now rewrite X. Qed.
Lemma hom_lin c a b t x t' x' : (hom c (a * t + b * t') (fun k => a * x k + b * x' k) == a * hom c t x + b * hom c t' x')%Q.
Proof.
  unfold hom. rewrite (sumq_ext n _ (fun k => a * (x k * inject_Z (nth (S k) c 0%Z)) + b * (x' k * inject_Z (nth (S k) c 0%Z)))%Q); [|intros; ring]. rewrite sumq_add, !sumq_scal. ring.
Qed.
Lemma hom_slack c x : (hom c 1 x == slack n c x)%Q. Proof. unfold hom, slack. ring. Qed.
Lemma lift_in t x : (0 <= t)%Q -> (forall c, In c rows -> (0 <= hom c t x)%Q) -> C (lift t x).
Proof.
  intros T H. apply in_C. rewrite lift_t. split; [|exact T]. intros i Hi. rewrite lift_slack by exact Hi. split; [|apply H; now apply nth_In]. apply hom_ext; [reflexivity|]. intros k Hk. unfold tail_of. now rewrite lift_x.
Qed.
(** Every point of the cone is such a point. *)
Lemma C_lift z : C z -> forall k, (k < d)%nat -> (z k == lift (z m) (tail_of z) k)%Q.
Proof.
  intros H k Hk. apply in_C in H as [H _]. unfold lift. destruct (Nat.ltb_spec k m) as [L|L]; [now apply H|]. destruct (Nat.eqb_spec k m) as [->|N]; [reflexivity|]. unfold tail_of. replace (m + 1 + (k - m - 1))%nat with k by lia. reflexivity.
Qed.
Lemma lift_mult q t x t' x' : (t' == q * t)%Q -> (forall k, (k < n)%nat -> (x' k == q * x k)%Q) -> forall k, (k < d)%nat -> (lift t' x' k == q * lift t x k)%Q.
Proof.
  intros T X k Hk. unfold lift. destruct (Nat.ltb_spec k m) as [L|L].
  - rewrite (hom_ext _ t' x' (q * t + 0 * t) (fun k => q * x k + 0 * x k)%Q); [rewrite hom_lin; ring|rewrite T; ring|]. intros j Hj. rewrite (X j Hj). ring.
  - destruct (Nat.eqb_spec k m) as [->|N]; [exact T|]. apply X. unfold d in Hk. lia.
Qed.
(** Small steps along y stay in the polyhedron if y is orthogonal to the tight rows. *)
Lemma small_step_both (v y : nat -> Q) : forall rs, (forall c, In c rs -> (0 <= slack n c v)%Q /\ (slack n c v == 0 -> sumq n (fun k => y k * inject_Z (nth (S k) c 0%Z)) == 0)%Q) ->
  exists e, (0 < e)%Q /\ forall c, In c rs -> (0 <= slack n c v + e * sumq n (fun k => y k * inject_Z (nth (S k) c 0%Z)))%Q /\ (0 <= slack n c v - e * sumq n (fun k => y k * inject_Z (nth (S k) c 0%Z)))%Q.
Proof.
  induction rs as [|c rs IH]; intros H; [exists 1%Q; split; [reflexivity|intros c []]|]. destruct (IH ltac:(intros; apply H; now right)) as (e & Pe & He). destruct (H c (or_introl eq_refl)) as [A B].
  set (s := slack n c v) in *. set (g := sumq n (fun k => y k * inject_Z (nth (S k) c 0%Z))%Q) in *.
  assert (exists e1, (0 < e1 <= e)%Q /\ (0 <= s + e1 * g)%Q /\ (0 <= s - e1 * g)%Q) as (e1 & [P1 P2] & P3).
  { destruct (Qeq_dec s 0) as [E|E]; [exists e; rewrite (B E), E; split; [lra|split; lra]|]. assert (PS : (0 < s)%Q) by lra. clear A B E.
    assert (PG : (0 < 1 + g * g)%Q) by (assert (0 <= g * g)%Q by (destruct (Qlt_le_dec g 0); nra); lra).
    set (q := (s / (1 + g * g))%Q). assert (Hq : (q * (1 + g * g) == s)%Q) by (unfold q; field; lra). assert (Pq : (0 < q)%Q) by (unfold q; apply Qlt_shift_div_l; lra).
    assert (SQ : forall w : Q, (0 <= w * w)%Q) by (intros w; destruct (Qlt_le_dec w 0); nra).
    assert (A1 : (0 <= q * (1 + g + g * g))%Q) by (apply Qmult_le_0_compat; [lra|]; pose proof (SQ (g + (1 # 2))%Q); lra).
    assert (A2 : (0 <= q * (1 - g + g * g))%Q) by (apply Qmult_le_0_compat; [lra|]; pose proof (SQ (g - (1 # 2))%Q); lra).
    assert (B1 : (0 <= s + q * g)%Q) by lra. assert (B2 : (0 <= s - q * g)%Q) by lra. clear A1 A2 SQ Hq PG.
    destruct (Qlt_le_dec e q) as [L|L].
    - exists e. split; [lra|]. destruct (Qlt_le_dec g 0); split; nra.
    - exists q. split; [lra|]. split; lra. }
  exists e1. split; [exact P1|]. intros c' [<-|Hc]; [exact P3|]. destruct (He c' Hc) as [X Y]. destruct (H c' (or_intror Hc)) as [Z _]. set (s' := slack n c' v) in *. set (g' := sumq n (fun k => y k * inject_Z (nth (S k) c' 0%Z))%Q) in *.
  assert (exists q, (0 < q /\ q <= 1 /\ e1 == q * e)%Q) as (q & Q1 & Q2 & Q3) by (exists (e1 / e)%Q; split; [apply Qlt_shift_div_l; lra|split; [apply Qle_shift_div_r; lra|field; lra]]). rewrite Q3. split; nra.
Qed.
(** Extreme rays with t > 0 are the vertices. *)
Lemma extreme_vertex z : extreme C d z -> (0 < z m)%Q -> is_vertex n rows (fun k => z (m + 1 + k)%nat / z m)%Q.
Proof.
  intros (Cz & NZ & EX) T. set (t := z m) in *. set (v := fun k => (z (m + 1 + k)%nat / t)%Q). pose proof (proj1 (in_C z) Cz) as [HC _]. fold t in HC.
  assert (SL : forall c, In c rows -> exists i, (i < m)%nat /\ (z i == t * slack n c v)%Q /\ (0 <= z i)%Q).
  { intros c Hc. destruct (In_nth _ _ [] Hc) as (i & Hi & <-). exists i. destruct (HC i Hi) as [E N]. split; [exact Hi|]. split; [|exact N]. rewrite E, <- hom_slack.
    rewrite (hom_ext (nth i rows []) t (tail_of z) (t * 1 + 0 * 0) (fun k => t * v k + 0 * 0)%Q); [rewrite (hom_lin _ t 0 1 v 0 (fun _ => 0%Q)); ring|ring|]. intros k Hk. unfold v, tail_of. field. lra. }
  assert (IP : in_polyhedron n rows v) by (intros c Hc; destruct (SL c Hc) as (i & Hi & E & N); destruct (Qlt_le_dec (slack n c v) 0) as [L|L]; [nra|exact L]).
  split; [exact IP|]. intros y Hy. destruct (small_step_both v y rows) as (e & Pe & He); [intros c Hc; split; [now apply IP|now apply Hy]|].
  assert (HH : forall s : Q, (s == 1 \/ s == -1)%Q -> C (lift (t / 2) (fun k => t / 2 * (v k + s * (e * y k))))%Q).
  { intros s Hs. apply lift_in; [apply Qle_shift_div_l; lra|]. intros c Hc. destruct (He c Hc) as [A B].
    rewrite (hom_ext c (t / 2) _ (t / 2 * 1 + (t / 2 * s * e) * 0) (fun k => t / 2 * v k + (t / 2 * s * e) * y k)%Q); [|field|intros; ring]. rewrite hom_lin, hom_slack. unfold hom at 1. set (g := sumq n (fun k => (y k * inject_Z (nth (S k) c 0%Z))%Q)) in *.
    assert (E : (t / 2 * slack n c v + t / 2 * s * e * (inject_Z (nth 0 c 0%Z) * 0 + g) == t / 2 * (slack n c v + s * (e * g)))%Q) by ring. rewrite E. assert (P2 : (0 <= t / 2)%Q) by (apply Qle_shift_div_l; lra). apply Qmult_le_0_compat; [exact P2|]. destruct Hs as [-> | ->]; lra. }
  destruct (EX _ _ (HH 1%Q (or_introl (Qeq_refl _))) (HH (-1)%Q (or_intror (Qeq_refl _)))) as (q & Hq).
  { intros k Hk. rewrite (C_lift z Cz k Hk). fold t. set (X1 := fun k0 => (t / 2 * (v k0 + 1 * (e * y k0)))%Q). set (X2 := fun k0 => (t / 2 * (v k0 + -1 * (e * y k0)))%Q). unfold lift. destruct (Nat.ltb_spec k m) as [L|L].
    - rewrite (hom_ext _ t (tail_of z) (1 * (t / 2) + 1 * (t / 2)) (fun j => 1 * X1 j + 1 * X2 j)%Q); [rewrite hom_lin; ring|field|]. intros j Hj. unfold X1, X2, v, tail_of. field. lra.
    - destruct (Nat.eqb_spec k m) as [->|N]; [field|]. unfold X1, X2, v, tail_of. field. lra. }
  intros k Hk. pose proof (Hq m ltac:(unfold d; lia)) as Q1. rewrite lift_t in Q1. fold t in Q1. pose proof (Hq (m + 1 + k)%nat ltac:(unfold d; lia)) as Q2. rewrite lift_x in Q2.
  assert (E1 : (q == 1 # 2)%Q) by (assert (t / 2 == t * (1 # 2))%Q by (field); nra). assert (E2 : (z (m + 1 + k)%nat == t * v k)%Q) by (unfold v; field; lra). rewrite E2, E1 in Q2. assert (E3 : (t / 2 == t * (1 # 2))%Q) by field. rewrite E3 in Q2. assert (X : (t * (e * y k) == 0)%Q) by lra. assert (Y : (e * y k == 0)%Q) by nra. nra.
Qed.
Lemma vertex_extreme v : is_vertex n rows v -> extreme C d (lift 1 v).
Proof.
  intros [IP K0]. split; [|split].
  - apply lift_in; [lra|]. intros c Hc. rewrite hom_slack. now apply IP.
  - intros Z0. specialize (Z0 m ltac:(unfold d; lia)). rewrite lift_t in Z0. discriminate.
  - intros x y Cx Cy E. exists (x m). pose proof (proj1 (in_C x) Cx) as [Hx Tx]. pose proof (proj1 (in_C y) Cy) as [Hy Ty].
    assert (X0 : forall k, (k < n)%nat -> (tail_of x k - x m * v k == 0)%Q).
    { apply (K0 (fun k => tail_of x k - x m * v k)%Q). intros c Hc T0. destruct (In_nth _ _ [] Hc) as (i & Hi & Ei). fold m in Hi. destruct (Hx i Hi) as [X1 X2]. destruct (Hy i Hi) as [Y1 Y2]. pose proof (E i ltac:(unfold d; lia)) as S0. rewrite (lift_slack 1 v i Hi), hom_slack, Ei, T0 in S0.
      assert (X3 : (x i == 0)%Q) by lra. rewrite X1, Ei in X3. unfold hom in X3. rewrite <- hom_slack in T0. unfold hom in T0.
      rewrite (sumq_ext n _ (fun k => tail_of x k * inject_Z (nth (S k) c 0%Z) + (- x m) * (v k * inject_Z (nth (S k) c 0%Z)))%Q); [|intros; ring]. rewrite sumq_add, sumq_scal. nra. }
    intros k Hk. rewrite (C_lift x Cx k Hk). apply lift_mult; [ring| |exact Hk]. intros j Hj. specialize (X0 j Hj). lra.
Qed.
Lemma C_pointed : no_line n rows -> pointed C d.
Proof.
  intros NL z Cz Cm. pose proof (proj1 (in_C z) Cz) as [H1 T1]. pose proof (proj1 (in_C _) Cm) as [H2 T2]. assert (T0 : (z m == 0)%Q) by lra.
  assert (X0 : forall k, (k < n)%nat -> (tail_of z k == 0)%Q).
  { apply NL. intros c Hc. destruct (In_nth _ _ [] Hc) as (i & Hi & Ei). fold m in Hi. destruct (H1 i Hi) as [A B]. destruct (H2 i Hi) as [_ D]. assert (z i == 0)%Q by lra. rewrite A in H. rewrite Ei in H. unfold hom in H. rewrite T0 in H. lra. }
  intros k Hk. rewrite (C_lift z Cz k Hk). rewrite (lift_mult 0 (z m) (tail_of z) (z m) (tail_of z)); [ring|rewrite T0; ring| |exact Hk]. intros j Hj. rewrite (X0 j Hj). ring.
Qed.
Lemma pointed_no_line : pointed C d -> no_line n rows.
Proof.
  intros P y Hy k Hk. assert (Z0 : forall s c, In c rows -> (hom c 0 (fun k => s * y k) == 0)%Q).
  { intros s c Hc. unfold hom. rewrite (sumq_ext n _ (fun k => s * (y k * inject_Z (nth (S k) c 0%Z)))%Q); [|intros; ring]. rewrite sumq_scal, (Hy c Hc). ring. }
  assert (L : C (lift 0 y)). { apply lift_in; [lra|]. intros c Hc. rewrite (hom_ext c 0 y 0 (fun k => 1 * y k)%Q); [rewrite Z0 by exact Hc; lra|reflexivity|intros; ring]. }
  specialize (P (lift 0 y) L). rewrite <- (lift_x 0 y k). apply P; [|unfold d; lia]. apply in_C. rewrite lift_t. split; [|lra]. intros i Hi. rewrite (lift_slack 0 y i Hi). assert (Hc : In (nth i rows []) rows) by (now apply nth_In).
  assert (E : (hom (nth i rows []) 0 y == 0)%Q) by (rewrite (hom_ext _ 0 y 0 (fun k => 1 * y k)%Q); [apply Z0; exact Hc|reflexivity|intros; ring]). rewrite E. split; [|lra].
  rewrite (hom_ext _ _ _ 0 (fun k => (-1) * y k)%Q); [rewrite (Z0 (-1)%Q _ Hc); ring|ring|]. intros j Hj. unfold tail_of. rewrite lift_x. ring.
Qed.
End Lift.
