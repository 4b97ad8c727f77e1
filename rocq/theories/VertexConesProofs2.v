(** The vertices and facets found are those of the polyhedron. *)
From Coq Require Import QArith Lqa.
From Verif Require Import Common RatVec RatVecSpec PipedSpec PipedProofs PipedProofs3 OmegaProofs3 BrionProofs4 ConeSpec CountSpec CountProofs CountProofs6 BarvinokProofs4 TriangProofs CountFileSpec VertexCones VertexConesSpec VertexConesProofs.
Open Scope Z_scope.

(** ** Cancelling the content *)
Lemma map_cancel g l : g <> 0 -> (forall x, In x l -> (g | x)) -> l = map (Z.mul g) (map (fun x => x / g) l).
Proof. intros Hg H. rewrite map_map. rewrite <- (map_id l) at 1. apply map_ext_in. intros x Hx. destruct (H x Hx) as (q & ->). rewrite Z.div_mul by exact Hg. ring. Qed.
Lemma cancel_cases v : let g := fold_left Z.gcd v 0 in (g = 0 /\ (forall x, In x v -> x = 0) /\ cancel_gcd v = v) \/ (0 < g /\ cancel_gcd v = map (fun x => x / g) v /\ forall x, In x v -> (g | x)).
Proof.
  intros g. assert (D : forall x, In x v -> (g | x)) by (apply (proj2 (proj1 (fold_gcd_div v 0 g) (Z.divide_refl _)))). assert (P : 0 <= g) by (apply fold_gcd_nonneg; lia). unfold cancel_gcd. fold g. destruct (Z.eqb_spec g 0) as [E|E]; cbn [negb andb].
  - left. split; [exact E|]. split; [|reflexivity]. intros x Hx. specialize (D x Hx). rewrite E in D. now apply Z.divide_0_l in D.
  - right. split; [lia|]. split; [|exact D]. destruct (Z.eqb_spec g 1) as [E1|E1]; cbn [negb]; [|reflexivity]. rewrite E1. rewrite <- (map_id v) at 1. apply map_ext. intros x. now rewrite Z.div_1_r.
Qed.
Lemma fold_right_div l x : (x | fold_right Z.gcd 0 l) <-> forall y, In y l -> (x | y).
Proof.
  induction l as [|a l IH]; cbn [fold_right]; [split; [intros _ y []|intros _; apply Z.divide_0_r]|]. split.
  - intros H y [<-|Hy]; [exact (Z.divide_trans _ _ _ H (Z.gcd_divide_l _ _))|]. apply IH; [|exact Hy]. exact (Z.divide_trans _ _ _ H (Z.gcd_divide_r _ _)).
  - intros H. apply Z.gcd_greatest; [apply H; now left|]. apply IH. intros y Hy. apply H. now right.
Qed.
Lemma cancel_primitive v : primitive_of v (cancel_gcd v).
Proof.
  destruct (cancel_cases v) as [(E & Z0 & C)|(P & C & D)]; set (g := fold_left Z.gcd v 0) in *.
  - exists 1. split; [lia|]. rewrite C. split; [rewrite <- (map_id v) at 1; apply map_ext; intros; now rewrite Z.mul_1_l|]. intros (x & Hx & N). exfalso. exact (N (Z0 x Hx)).
  - exists g. split; [exact P|]. rewrite C. split; [apply map_cancel; [lia|exact D]|]. intros _. set (r := fold_right Z.gcd 0 (map (fun x => x / g) v)). assert (R0 : 0 <= r) by (unfold r; destruct (map (fun x => x / g) v); cbn [fold_right]; [lia|apply Z.gcd_nonneg]).
    assert (DV : (g * r | g * 1)).
    { rewrite Z.mul_1_r. unfold g at 2. apply fold_gcd_div. split; [apply Z.divide_0_r|]. intros x Hx. destruct (D x Hx) as (q & ->). rewrite (Z.mul_comm q g). apply Z.mul_divide_mono_l. assert (Q1 : q = (q * g) / g) by (rewrite Z.div_mul; lia). rewrite Q1.
      apply (proj1 (fold_right_div (map (fun x => x / g) v) r) (Z.divide_refl _)). apply in_map_iff. exists (q * g). split; [reflexivity|exact Hx]. }
    apply Z.mul_divide_cancel_l in DV; [|lia]. apply Z.divide_1_r_nonneg in DV; [exact DV|exact R0].
Qed.
Lemma cancel_length v : length (cancel_gcd v) = length v.
Proof. unfold cancel_gcd. destruct (_ && _); [apply map_length|reflexivity]. Qed.

(** ** Lists *)
Lemma pairwise_of_nth {A} (R : A -> A -> Prop) l d : (forall i j, (i < j)%nat -> (j < length l)%nat -> R (nth i l d) (nth j l d)) -> pairwise R l.
Proof.
  induction l as [|x l IH]; intros H; [exact Logic.I|]. split.
  - intros y Hy. destruct (In_nth _ _ d Hy) as (j & Hj & <-). apply (H 0%nat (S j)); [lia|cbn; lia].
  - apply IH. intros i j Hij Hj. apply (H (S i) (S j)); [lia|cbn; lia].
Qed.
Lemma pairwise_weak {A} (R R' : A -> A -> Prop) l : (forall x y, In x l -> In y l -> R x y -> R' x y) -> pairwise R l -> pairwise R' l.
Proof.
  induction l as [|x l IH]; intros H P; [exact Logic.I|]. destruct P as [P1 P2]. split; [intros y Hy; apply H; [now left|now right|now apply P1]|]. apply IH; [intros; apply H; auto; now right|exact P2].
Qed.
Lemma pairwise_filter {A} (R : A -> A -> Prop) f l : pairwise R l -> pairwise R (filter f l).
Proof. induction l as [|x l IH]; intros P; [exact Logic.I|]. destruct P as [P1 P2]. cbn [filter]. destruct (f x); [|now apply IH]. split; [intros y Hy; apply P1; now apply filter_In in Hy|now apply IH]. Qed.
Lemma pairwise_map {A B} (R : B -> B -> Prop) (f : A -> B) l : pairwise (fun x y => R (f x) (f y)) l -> pairwise R (map f l).
Proof. induction l as [|x l IH]; intros P; [exact Logic.I|]. destruct P as [P1 P2]. cbn [map]. split; [intros y Hy; apply in_map_iff in Hy as (z & <- & Hz); now apply P1|now apply IH]. Qed.

Section Cones.
Context (n : nat) (rows : list (list Z)) (LR : forall c, In c rows -> length c = S n).
Let m := length rows.
Let d := (1 + n + m)%nat.
Notation CC := (C n rows).
Definition finite (r : list Z) : bool := negb (nth m r 0 =? 0).
Definition vertex_of (r : list Z) : rvec := rv_scalar (map (fun j => nth (m + 1 + j) r 0) (seq 0 n)) (nth m r 0).
Definition cone_for (r : list Z) := (vertex_of r, incident n (firstn m r) rows []).
Lemma collect_spec rs : forall acc ub, collect n rows rs acc ub = (rev (map cone_for (filter finite rs)) ++ acc, orb ub (negb (forallb finite rs)))%list.
Proof.
  induction rs as [|r rs IH]; intros acc ub; cbn [collect filter forallb map rev]; [now rewrite orb_false_r|]. unfold cone_of_ray. fold m. assert (FR : finite r = negb (nth m r 0 =? 0)) by reflexivity. rewrite FR. destruct (nth m r 0 =? 0); cbn [negb andb map rev].
  - rewrite IH. destruct ub; reflexivity.
  - rewrite IH. rewrite <- app_assoc. reflexivity.
Qed.
Lemma incident_spec : forall rws slacks acc, length slacks = length rws ->
  incident n slacks rws acc = (rev (map (fun p => cancel_gcd (map (fun k => - nth (S k) (snd p) 0) (seq 0 n))) (filter (fun p => fst p =? 0) (List.combine slacks rws))) ++ acc)%list.
Proof.
  induction rws as [|r rws IH]; intros slacks acc L; destruct slacks as [|s slacks]; try discriminate L; [reflexivity|]. cbn [incident List.combine filter fst]. rewrite IH by (now injection L). destruct (s =? 0); cbn [map rev snd]; [rewrite <- app_assoc|]; reflexivity.
Qed.
Lemma coord_vertex r k : (k < n)%nat -> (coord (vertex_of r) k == zpoint r (m + 1 + k)%nat / zpoint r m)%Q.
Proof.
  intros Hk. unfold coord, vertex_of, rv_scalar, num_at, den_at. cbn [enumerator denominator]. rewrite map_length, seq_length. rewrite (nth_indep _ 0 (nth (m + 1 + 0) r 0)) by (now rewrite map_length, seq_length). rewrite (map_nth (fun j => nth (m + 1 + j) r 0) (seq 0 n) 0%nat k), seq_nth by exact Hk.
  rewrite (nth_indep _ 1 (nth m r 0)) by (now rewrite repeat_length). rewrite nth_repeat. reflexivity.
Qed.
Lemma opp_tail c : length c = S n -> map (fun k => - nth (S k) c 0) (seq 0 n) = map Z.opp (tl c).
Proof.
  intros L. destruct c as [|b a]; [discriminate|]. injection L as L. cbn [tl]. apply nth_ext with (d := 0) (d' := 0); [now rewrite !map_length, seq_length|]. intros k Hk. rewrite map_length, seq_length in Hk.
  rewrite (nth_indep _ 0 (- nth 1 (b :: a) 0)) by (now rewrite map_length, seq_length). rewrite (map_nth (fun k => - nth (S k) (b :: a) 0) (seq 0 n) 0%nat k), seq_nth by exact Hk. cbn [Nat.add nth]. rewrite (nth_indep (map Z.opp a) 0 (Z.opp 0)) by (rewrite map_length; lia). now rewrite map_nth.
Qed.
Section Ray.
Context (r : list Z) (LRr : length r = d) (EX : extreme CC d (zpoint r)) (FI : finite r = true).
Lemma den_pos : 0 < nth m r 0.
Proof.
  destruct EX as (CZ & _). apply in_C in CZ as [_ T]. fold m in T. unfold zpoint in T. unfold finite in FI. apply negb_true_iff, Z.eqb_neq in FI. change 0%Q with (inject_Z 0) in T. rewrite <- Zle_Qle in T. lia.
Qed.
Lemma zden : (0 < zpoint r m)%Q.
Proof. unfold zpoint. change 0%Q with (inject_Z 0). rewrite <- Zlt_Qlt. exact den_pos. Qed.
Lemma vertex_is : is_vertex n rows (coord (vertex_of r)).
Proof.
  apply (vertex_ext n rows (fun k => zpoint r (m + 1 + k)%nat / zpoint r m)%Q); [intros k Hk; now rewrite coord_vertex|]. apply (extreme_vertex n rows (zpoint r) EX). exact zden.
Qed.
Lemma vertex_usable : (exists k, reachable positive k (vertex_of r)) /\ dim (vertex_of r) = n.
Proof.
  split.
  - exists (CScalar (map (fun j => nth (m + 1 + j) r 0) (seq 0 n)) (nth m r 0)). split; [exact den_pos|]. exists (vertex_of r), []. split; [reflexivity|]. split; [constructor|reflexivity].
  - unfold dim, vertex_of, rv_scalar. cbn [enumerator]. now rewrite map_length, seq_length.
Qed.
Lemma slack_at i : (i < m)%nat -> (zpoint r i == zpoint r m * slack n (nth i rows []) (coord (vertex_of r)))%Q.
Proof.
  intros Hi. pose proof EX as (CZ & _). apply in_C in CZ as [H _]. destruct (H i Hi) as [E _]. fold m in E. rewrite E, <- hom_slack.
  rewrite (hom_ext n (nth i rows []) (zpoint r m) (tail_of rows (zpoint r)) (zpoint r m * 1 + 0 * 0) (fun k => zpoint r m * coord (vertex_of r) k + 0 * 0)%Q); [rewrite (hom_lin n _ (zpoint r m) 0 1 (coord (vertex_of r)) 0 (fun _ => 0%Q)); ring|ring|].
  intros k Hk. unfold tail_of. fold m. rewrite (coord_vertex r k Hk). pose proof zden. field. lra.
Qed.
Lemma facets_are : incident n (firstn m r) rows [] = map cancel_gcd (outer_normals n rows (coord (vertex_of r))).
Proof.
  rewrite incident_spec by (rewrite firstn_length; unfold d in LRr; fold m; lia). rewrite app_nil_r. unfold outer_normals. rewrite map_rev, map_map. f_equal.
  assert (G : forall rws sl, length sl = length rws -> (forall c, In c rws -> length c = S n) -> (forall i, (i < length rws)%nat -> (inject_Z (nth i sl 0%Z) == zpoint r m * slack n (nth i rws []) (coord (vertex_of r)))%Q) ->
    map (fun p => cancel_gcd (map (fun k => - nth (S k) (snd p) 0) (seq 0 n))) (filter (fun p : Z * list Z => fst p =? 0) (List.combine sl rws)) = map (fun x => cancel_gcd (map Z.opp (tl x))) (filter (fun c => Qeq_bool (slack n c (coord (vertex_of r))) 0) rws)).
  { induction rws as [|c rws IH]; intros sl L LC H; destruct sl as [|s sl]; try discriminate L; [reflexivity|]. cbn [List.combine filter fst]. assert (IH' := IH sl ltac:(now injection L) ltac:(intros; apply LC; now right) ltac:(intros i Hi; apply (H (S i)); cbn; lia)).
    specialize (H 0%nat ltac:(cbn; lia)). cbn [nth] in H. pose proof zden as ZD. destruct (Z.eqb_spec s 0) as [->|N].
    - assert (E : Qeq_bool (slack n c (coord (vertex_of r))) 0 = true). { apply Qeq_bool_iff. change (inject_Z 0) with 0%Q in H. symmetry in H. apply Qmult_integral in H. destruct H as [H|H]; [lra|exact H]. }
      rewrite E. cbn [map snd]. rewrite opp_tail by (apply LC; now left). f_equal. exact IH'.
    - assert (E : Qeq_bool (slack n c (coord (vertex_of r))) 0 = false). { apply Bool.not_true_iff_false. intros T. apply Qeq_bool_iff in T. rewrite T, Qmult_0_r in H. apply N. change 0%Q with (inject_Z 0) in H. unfold Qeq in H; cbn in H; lia. }
      rewrite E. exact IH'. }
  apply G; [rewrite firstn_length; unfold d in LRr; fold m; lia|exact LR|]. intros i Hi. fold m in Hi. rewrite <- (slack_at i Hi). unfold zpoint. rewrite <- (firstn_skipn m r) at 2. rewrite app_nth1; [reflexivity|]. rewrite firstn_length. unfold d in LRr. lia.
Qed.
End Ray.
Section Contract.
Context (F : ray_algorithm) (RC : ray_contract F (slack_matrix rows) d (sign_restricted m n)).
Lemma no_line_err : ~ no_line n rows -> vertex_cones F rows n = Err AssertFail.
Proof.
  intros NL. unfold vertex_cones. fold m. replace (forallb _ rows) with true by (symmetry; apply forallb_forall; intros c Hc; apply Nat.eqb_eq; now apply LR). cbn [negb]. unfold ray_contract in RC. fold d. destruct (F (slack_matrix rows) d (sign_restricted m n)) as [rs sub]. destruct RC as [[R1 _] _].
  destruct sub as [|x sub]; [|reflexivity]. exfalso. apply NL. apply (pointed_no_line n rows). now apply R1.
Qed.
Lemma cones_main : no_line n rows -> exists cones ub, vertex_cones F rows n = Ok (cones, ub) /\ (ub = false <-> no_escape n rows) /\ all_vertices n rows (map (fun c => coord (fst c)) cones) /\
  forall c, In c cones -> ((exists k, reachable positive k (fst c)) /\ dim (fst c) = n) /\ snd c = map cancel_gcd (outer_normals n rows (coord (fst c))).
Proof.
  intros NL. unfold vertex_cones. fold m. replace (forallb _ rows) with true by (symmetry; apply forallb_forall; intros c Hc; apply Nat.eqb_eq; now apply LR). cbn [negb]. unfold ray_contract in RC. fold d. destruct (F (slack_matrix rows) d (sign_restricted m n)) as [rs sub]. destruct RC as [[_ R1] R2].
  pose proof (C_pointed n rows NL) as PT. specialize (R1 PT). subst sub. destruct (R2 PT) as (RA & RB & RD & RE). clear R2. rewrite collect_spec, app_nil_r. cbn [orb].
  exists (rev (map cone_for (filter finite rs))), (negb (forallb finite rs)). split; [reflexivity|]. split; [|split; [split; [|split]|]].
  - split.
    + intros UB y Hy k Hk. apply negb_false_iff in UB. rewrite forallb_forall in UB. assert (LC : CC (lift n rows 0 y)). { apply (lift_in n rows); [lra|]. intros c Hc. unfold hom. rewrite Qmult_0_r, Qplus_0_l. now apply Hy. }
      destruct (RD _ LC) as (w & W0 & WE). pose proof (WE m ltac:(unfold d; lia)) as WM. unfold m in WM at 1. rewrite (lift_t n rows) in WM.
      assert (PR : forall i, (i < length rs)%nat -> (0 < zpoint (nth i rs []) m)%Q) by (intros i Hi; destruct (RA (nth i rs []) (nth_In _ _ Hi)) as [Lx EX]; exact (zden _ Lx EX (UB _ (nth_In _ _ Hi)))).
      assert (WZ : forall i, (i < length rs)%nat -> (w i == 0)%Q).
      { intros i Hi. assert (GE : (w i * zpoint (nth i rs []) m <= sumq (length rs) (fun i => w i * zpoint (nth i rs []) m))%Q). { apply (sumq_ge_term (length rs) (fun i => w i * zpoint (nth i rs []) m)%Q i); [intros j Hj; apply Qmult_le_0_compat; [now apply W0|]; apply Qlt_le_weak; now apply PR|exact Hi]. }
        rewrite <- WM in GE. pose proof (PR i Hi). pose proof (W0 i Hi). nra. }
      pose proof (WE (m + 1 + k)%nat ltac:(unfold d; lia)) as WK. unfold m in WK at 1. rewrite (lift_x n rows) in WK. rewrite WK. rewrite (sumq_ext _ _ (fun _ => 0%Q)); [apply sumq_0|]. intros i Hi. rewrite (WZ i Hi). ring.
    + intros NE. apply negb_false_iff. apply forallb_forall. intros r Hr. unfold finite. apply negb_true_iff, Z.eqb_neq. intros Z0. destruct (RA r Hr) as (Lr & EX). pose proof EX as (CZ & NZ & _). apply NZ. pose proof (proj1 (in_C n rows _) CZ) as [HC _]. fold m in HC.
      assert (ZM : (zpoint r m == 0)%Q) by (unfold zpoint; now rewrite Z0). assert (X0 : forall k, (k < n)%nat -> (tail_of rows (zpoint r) k == 0)%Q).
      { apply NE. intros c Hc. destruct (In_nth _ _ [] Hc) as (i & Hi & Ei). destruct (HC i Hi) as [A B]. rewrite A, Ei in B. unfold hom in B. rewrite ZM in B. lra. }
      intros k Hk. rewrite (C_lift n rows _ CZ k Hk). fold m. rewrite (lift_mult n rows 0 (zpoint r m) (tail_of rows (zpoint r)) (zpoint r m) (tail_of rows (zpoint r))); [ring|rewrite ZM; ring| |exact Hk]. intros j Hj. rewrite (X0 j Hj). ring.
  - intros v Hv. apply in_map_iff in Hv as (c & <- & Hc). apply in_rev in Hc. apply in_map_iff in Hc as (r & <- & Hr). apply filter_In in Hr as [Hr Fr]. cbn [cone_for fst]. destruct (RA r Hr). now apply vertex_is.
  - intros v Hv. destruct (RB _ (vertex_extreme n rows v Hv)) as (r & q & Hr & Pq & E). pose proof (E m ltac:(unfold d; lia)) as EM. unfold m in EM at 1. rewrite (lift_t n rows) in EM.
    assert (N0 : ~ (zpoint r m == 0)%Q) by (intros Z0; rewrite Z0 in EM; lra).
    exists (coord (vertex_of r)). split.
    + apply in_map_iff. exists (cone_for r). split; [reflexivity|]. apply -> in_rev. apply in_map. apply filter_In. split; [exact Hr|]. unfold finite. apply negb_true_iff, Z.eqb_neq. intros Z0. apply N0. unfold zpoint. now rewrite Z0.
    + intros k Hk. rewrite coord_vertex by exact Hk. pose proof (E (m + 1 + k)%nat ltac:(unfold d; lia)) as EK. unfold m in EK at 1. rewrite (lift_x n rows) in EK. rewrite EK. assert (Q1 : (q == 1 / zpoint r m)%Q) by (rewrite EM; field; exact N0). rewrite Q1. field. exact N0.
  - assert (PW : pairwise (fun p q => ~ same_point n p q) (map (fun c : rvec * list (list Z) => coord (fst c)) (rev (map cone_for (filter finite rs))))).
    { rewrite map_rev. apply pairwise_rev; [intros x y H S0; apply H; intros k Hk; symmetry; now apply S0|]. rewrite map_map. apply pairwise_map. cbn [cone_for fst].
      apply (pairwise_weak (fun x y => forall q, (0 < q)%Q -> ~ forall k, (k < d)%nat -> (zpoint x k == q * zpoint y k)%Q)); [|apply pairwise_filter, (pairwise_of_nth _ _ []); intros i j Hij Hj q Pq; now apply RE].
      intros x y Hx Hy NM S0. apply filter_In in Hx as [Hx Fx]. apply filter_In in Hy as [Hy Fy]. destruct (RA x Hx) as [Lx Ex]. destruct (RA y Hy) as [Ly Ey]. pose proof (zden x Lx Ex Fx) as Px. pose proof (zden y Ly Ey Fy) as Py.
      apply (NM (zpoint x m / zpoint y m)%Q); [apply Qlt_shift_div_l; lra|]. intros k Hk. rewrite (C_lift n rows _ (proj1 Ex) k Hk), (C_lift n rows _ (proj1 Ey) k Hk). fold m. apply (lift_mult n rows); [field; lra| |exact Hk].
      intros j Hj. specialize (S0 j Hj). rewrite !coord_vertex in S0 by exact Hj. unfold tail_of. fold m. assert (E1 : (zpoint x (m + 1 + j)%nat == zpoint x m * (zpoint x (m + 1 + j)%nat / zpoint x m))%Q) by (field; lra). rewrite E1, S0. field. lra. }
    intros i j Hij Hj. exact (pairwise_nth _ _ origin PW i j Hij Hj).
  - intros c Hc. apply in_rev in Hc. apply in_map_iff in Hc as (r & <- & Hr). apply filter_In in Hr as [Hr Fr]. destruct (RA r Hr) as [Lr Er]. cbn [cone_for fst snd]. split; [now apply vertex_usable|now apply facets_are].
Qed.
End Contract.
End Cones.
