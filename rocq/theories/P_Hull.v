(** C92: the integer hull of latte-maximize and latte-minimize.  Specification: HullSpec.v. *)
From Coq Require Import QArith Lqa.
From Verif Require Import Common ExpSpec Dig DigSpec DigProofs P_Dig Hull HullSpec HullProofs.
Open Scope Z_scope.

(** Everything in the list that is returned is an integer point of the polytope. *)
Theorem hull_of_integer_points : forall T n points fuel R, (1 <= n)%nat -> (forall y, In y points -> length y = n) -> (forall k, length (t_cost T k) = n) -> exact_solver n points (t_solve T) -> lrs_contract n points (t_lrs T) ->
  integral_hull fuel T n = Ok R -> R <> [] /\ forall x, In x R -> In x points.
Proof.
  intros T n points fuel R Hn LP Hc He Hl E. destruct (integral_hull_ok T n points Hc He Hl fuel R Hn LP E) as (I0 & old & new & -> & N & _). split; [destruct old; [contradiction|discriminate]|exact I0].
Qed.
Print Assumptions hull_of_integer_points.

(** The list is [old ++ new], where [new] are the points found in the last round.  Either they were all known, and then, if the known points do not
    lie on one hyperplane, every integer point of the polytope is a convex combination of the list; or one of them was not known, and then another one
    was known at least twice.
    Missing for the full property: the second case, and known points on one hyperplane; it fails there, see the refutations below. *)
Theorem integer_hull_complete_partial : forall T n points fuel R, (1 <= n)%nat -> (forall y, In y points -> length y = n) -> (forall k, length (t_cost T k) = n) -> exact_solver n points (t_solve T) -> lrs_contract n points (t_lrs T) ->
  integral_hull fuel T n = Ok R -> exists old new, R = old ++ new /\
    ((forall x, In x new -> In x old) \/ exists x y, In x new /\ ~ In x old /\ In y new /\ (2 <= times y old)%nat) /\
    (~ flat n old -> (forall x, In x new -> In x old) -> forall y, In y points -> in_hull R (map inject_Z y)).
Proof.
  intros T n points fuel R Hn LP Hc He Hl E. destruct (integral_hull_ok T n points Hc He Hl fuel R Hn LP E) as (_ & old & new & ER & _ & A & B). exists old, new. auto.
Qed.
Print Assumptions integer_hull_complete_partial.

(** The rounds end: at most one for every integer point.  If lrs never prints more rows than it was given points, the list is returned; otherwise
    it may be that memory outside of an array is read. *)
Theorem hull_returns : forall T n points, (1 <= n)%nat -> (forall k, length (t_cost T k) = n) -> exact_solver n points (t_solve T) -> total_solver n (t_solve T) -> lrs_contract n points (t_lrs T) ->
  (exists R, forall fuel, (length points < fuel)%nat -> integral_hull fuel T n = Ok R) \/
  ((exists old, incl old points /\ (n <= length old < length (t_lrs T old))%nat) /\ forall fuel, (length points < fuel)%nat -> integral_hull fuel T n = Err OutOfBounds).
Proof. intros T n points Hn Hc He Ht Hl. exact (hull_total T n points Hc He Hl Ht Hn). Qed.
Print Assumptions hull_returns.
(** That is so in every round with more facets than points in the list. *)
Theorem more_facets_than_points : forall T n k vertices fuel, (forall k, length (t_cost T k) = n) -> total_solver n (t_solve T) -> (forall some row, In row (t_lrs T some) -> length row = S n) ->
  vertices <> [] -> (length vertices < length (normals (t_lrs T vertices)))%nat -> hull_loop (S fuel) T n k vertices = Err OutOfBounds.
Proof.
  intros T n k V fuel Hc Ht Hl N L. cbn [hull_loop].
  assert (SC : forall costs j, Forall (fun c => length c = n) costs -> exists new, solve_costs T j costs = Ok new /\ length new = length costs).
  { induction costs as [|c costs IH]; intros j F; [now exists []|]. pose proof (Forall_inv F) as F1. cbv beta in F1. destruct (Ht j c F1) as (v & E1). destruct (IH (S j) (Forall_inv_tail F)) as (vs & E2 & L2). exists (v :: vs). cbn [solve_costs length]. rewrite E1, E2, L2. auto. }
  destruct (SC (costs_for T n k (normals (t_lrs T V))) k) as (new & E1 & L1).
  { assert (F : Forall (fun c => length c = n) (normals (t_lrs T V))).
    { apply Forall_forall. intros h Hh. unfold normals in Hh. apply filter_In in Hh as (Hh & _). apply in_map_iff in Hh as (row & <- & Hr). rewrite map_length. specialize (Hl V row Hr). destruct row; [discriminate Hl|]. cbn in *. lia. }
    destruct (normals (t_lrs T V)) as [|h l]; [cbn in L; lia|exact F]. }
  unfold get_vertices. rewrite E1. cbn [bind]. assert (LN : (length V < length new)%nat) by (rewrite L1; destruct (normals (t_lrs T V)) as [|h l] eqn:E; [cbn in L; lia|exact L]).
  unfold push_vector. replace (0 <? length V)%nat with true by (symmetry; apply Nat.ltb_lt; destruct V; [contradiction|cbn; lia]). replace (length V <? length new)%nat with true by (symmetry; now apply Nat.ltb_lt). reflexivity.
Qed.
Print Assumptions more_facets_than_points.

(** SolveIP is an exact solver if the factor of its perturbations is large enough (see perturbed_maximum of C89). *)
Theorem digging_exact : forall n cones points matrix fuel rnd, decomposes n cones points -> describes n matrix points -> (forall k j, length (rnd k j) = n /\ Forall (fun y => -9 <= y <= 9) (rnd k j)) ->
  (forall y z, In y points -> In z points -> 9 * fold_right Z.add 0 (map (fun p => Z.abs (fst p - snd p)) (combine y z)) < perturb_factor n cones) ->
  exact_solver n points (digging fuel rnd cones matrix n).
Proof.
  intros n cones points matrix fuel rnd D M Rn Fa k cost x Lc E. unfold digging in E. destruct (solve_ip fuel (rnd k) cones matrix cost n) as [((x', kk), used)|] eqn:E1; [|discriminate E]. cbn [bind] in E. injection E as ->.
  exact (perturbed_maximum n cones points matrix cost (rnd k) fuel x kk used D M E1 Lc (Rn k) Fa).
Qed.
Print Assumptions digging_exact.

(** A solver that looks at all points. *)
Fixpoint best (cost : list Z) (p : list Z) (l : list (list Z)) : list Z :=
  match l with [] => p | q :: l' => best cost (if value_at cost p <? value_at cost q then q else p) l' end.
Lemma best_ok cost l : forall p, In (best cost p l) (p :: l) /\ forall y, In y (p :: l) -> value_at cost y <= value_at cost (best cost p l).
Proof.
  induction l as [|q l IH]; intros p; cbn [best]. { split; [now left|]. intros y [<-|[]]. lia. }
  destruct (IH (if value_at cost p <? value_at cost q then q else p)) as (A & B). split.
  - destruct A as [A|A]; [|right; now right]. rewrite <- A. destruct (_ <? _); [right; now left|now left].
  - assert (C : value_at cost p <= value_at cost (best cost (if value_at cost p <? value_at cost q then q else p) l) /\ value_at cost q <= value_at cost (best cost (if value_at cost p <? value_at cost q then q else p) l)).
    { destruct (value_at cost p <? value_at cost q) eqn:E; [apply Z.ltb_lt in E; specialize (B q (or_introl eq_refl)); lia|apply Z.ltb_ge in E; specialize (B p (or_introl eq_refl)); lia]. }
    intros y [<-|[<-|Hy]]; [apply C|apply C|apply B; now right].
Qed.
Lemma best_exact n p l : exact_solver n (p :: l) (fun _ cost => Ok (best cost p l)).
Proof. intros k cost x _ E. injection E as <-. apply best_ok. Qed.

(** Non-vacuity: the segment 0 <= x <= 3, with the inequalities of the smallest and the largest given point as lrs. *)
Definition low (l : list (list Z)) : Z := nth 0 (best [-1] (hd [] l) (tl l)) 0.
Definition high (l : list (list Z)) : Z := nth 0 (best [1] (hd [] l) (tl l)) 0.
Definition segment_tools : tools := mkTools (fun _ cost => Ok (best cost [0] [[1];[2];[3]])) (fun k => if Nat.even k then [5] else [-7]) (fun l => [[- low l; 1]; [high l; -1]]).
Lemma segment_bounds V : V <> [] -> Forall (fun v => length v = 1%nat) V -> In [low V] V /\ In [high V] V /\ forall v, In v V -> low V <= nth 0 v 0 <= high V.
Proof.
  intros N F. destruct V as [|p l]; [contradiction|]. unfold low, high. cbn [hd tl]. destruct (best_ok [-1] l p) as (A1 & B1). destruct (best_ok [1] l p) as (A2 & B2). set (a := best [-1] p l) in *. set (b := best [1] p l) in *. rewrite Forall_forall in F.
  assert (ONE : forall v, In v (p :: l) -> v = [nth 0 v 0]). { intros v Hv. specialize (F v Hv). destruct v as [|z [|]]; try discriminate F. reflexivity. }
  rewrite <- (ONE a A1), <- (ONE b A2). split; [exact A1|]. split; [exact A2|]. intros v Hv. specialize (B1 v Hv). specialize (B2 v Hv). rewrite (ONE v Hv), (ONE a A1) in B1. rewrite (ONE v Hv), (ONE b A2) in B2. unfold value_at in B1, B2. cbn [combine map fold_right fst snd] in B1, B2. lia.
Qed.
Lemma segment_lrs : lrs_contract 1 [[0];[1];[2];[3]] (t_lrs segment_tools).
Proof.
  split; [intros some row [<-|[<-|[]]]; reflexivity|]. intros V N I0 _ x Lx. destruct x as [|x [|]]; try discriminate Lx. cbn [t_lrs segment_tools].
  assert (F : Forall (fun v => length v = 1%nat) V). { apply Forall_forall. intros v Hv. specialize (I0 v Hv). destruct I0 as [<-|[<-|[<-|[<-|[]]]]]; reflexivity. }
  destruct (segment_bounds V N F) as (A & B & C). set (lo := low V) in *. set (hi := high V) in *.
  assert (RV : (forall row, In row [[- lo; 1]; [hi; -1]] -> (0 <= qvalue row (1 :: [x]))%Q) <-> (inject_Z lo <= x <= inject_Z hi)%Q).
  { unfold qvalue. split.
    - intros H. pose proof (H [- lo; 1] ltac:(cbn; auto)) as H1. pose proof (H [hi; -1] ltac:(cbn; auto)) as H2. cbn [combine map fold_right fst snd] in H1, H2. rewrite inject_Z_opp in H1. change (inject_Z 1) with 1%Q in H1. change (inject_Z (-1)) with (-1)%Q in H2. split; lra.
    - intros (H1 & H2) row [<-|[<-|[]]]; cbn [combine map fold_right fst snd]; [rewrite inject_Z_opp; change (inject_Z 1) with 1%Q|change (inject_Z (-1)) with (-1)%Q]; lra. }
  rewrite RV. split.
  - intros (w & Lw & P & S1 & Hx). specialize (Hx 0%nat ltac:(cbn; lia)). cbn [nth] in Hx.
    assert (G : (inject_Z lo * fold_right Qplus 0 w <= fold_right Qplus 0 (map (fun p : Q * list Z => fst p * inject_Z (nth 0 (snd p) 0%Z)) (combine w V)) <= inject_Z hi * fold_right Qplus 0 w)%Q).
    { clear -Lw P C. assert (P' : forall t, In t w -> (0 <= t)%Q) by exact P. assert (C' : forall v, In v V -> lo <= nth 0 v 0 <= hi) by exact C. clearbody lo hi. clear P C. revert V Lw C'. induction w as [|t w IH]; intros [|v V] Lw C'; try discriminate Lw; [cbn; lra|]. cbn [combine map fold_right fst snd].
      specialize (IH (fun s Hs => P' s (or_intror Hs)) V ltac:(cbn in Lw; lia) (fun u Hu => C' u (or_intror Hu))). pose proof (P' t (or_introl eq_refl)) as T0. destruct (C' v (or_introl eq_refl)) as (C1 & C2). rewrite Zle_Qle in C1, C2. nra. }
    rewrite S1, <- Hx in G. lra.
  - intros (H1 & H2). destruct (Z.eq_dec lo hi) as [E|E].
    + assert (EX : (x == inject_Z lo)%Q) by (rewrite <- E in H2; lra). destruct (in_hull_self V [lo] A) as (w & Lw & P & S1 & Hx). exists w. split; [exact Lw|]. split; [exact P|]. split; [exact S1|]. intros [|i] Hi; [|cbn in Hi; lia]. cbn [nth]. rewrite EX. apply (Hx 0%nat). cbn. lia.
    + assert (LH : (inject_Z lo < inject_Z hi)%Q) by (rewrite <- Zlt_Qlt; destruct (C [lo] A) as (_ & C2); cbn [nth] in C2; lia).
      destruct (in_hull_self V [lo] A) as (w1 & L1 & P1 & S1 & X1). destruct (in_hull_self V [hi] B) as (w2 & L2 & P2 & S2 & X2). specialize (X1 0%nat ltac:(cbn; lia)). specialize (X2 0%nat ltac:(cbn; lia)). cbn [map nth] in X1, X2.
      set (s := ((inject_Z hi - x) / (inject_Z hi - inject_Z lo))%Q). assert (Es : (s * (inject_Z hi - inject_Z lo) == inject_Z hi - x)%Q) by (unfold s; field; lra).
      assert (S01 : (0 <= s <= 1)%Q). { assert (N0 : (0 < / (inject_Z hi - inject_Z lo))%Q) by (apply Qinv_lt_0_compat; lra). assert (U : (0 <= s)%Q) by (unfold s, Qdiv; apply Qmult_le_0_compat; lra). split; [exact U|]. apply Qnot_lt_le. intros G. assert (X : (inject_Z hi - inject_Z lo < s * (inject_Z hi - inject_Z lo))%Q) by nra. lra. }
      exists (map (fun p => s * fst p + (1 - s) * snd p)%Q (combine w1 w2)). split; [rewrite map_length, combine_length; lia|]. split; [|split].
      * intros t Ht. apply in_map_iff in Ht as ((a, b) & <- & Hp). cbn [fst snd]. pose proof (P1 a (in_combine_l _ _ _ _ Hp)). pose proof (P2 b (in_combine_r _ _ _ _ Hp)). nra.
      * assert (G : (fold_right Qplus 0 (map (fun p => s * fst p + (1 - s) * snd p) (combine w1 w2)) == s * fold_right Qplus 0 w1 + (1 - s) * fold_right Qplus 0 w2)%Q).
        { clear -L1 L2. assert (L : length w1 = length w2) by congruence. clear L1 L2. revert w2 L. induction w1 as [|a w1 IH]; intros [|b w2] L; try discriminate L; [cbn; ring|]. cbn [combine map fold_right fst snd]. rewrite IH by (cbn in L; lia). ring. }
        rewrite G, S1, S2. ring.
      * intros [|i] Hi; [|cbn in Hi; lia]. cbn [nth].
        assert (G : (fold_right Qplus 0 (map (fun p : Q * list Z => fst p * inject_Z (nth 0 (snd p) 0%Z)) (combine (map (fun p : Q * Q => s * fst p + (1 - s) * snd p) (combine w1 w2)) V)) ==
          s * fold_right Qplus 0 (map (fun p : Q * list Z => fst p * inject_Z (nth 0 (snd p) 0%Z)) (combine w1 V)) + (1 - s) * fold_right Qplus 0 (map (fun p : Q * list Z => fst p * inject_Z (nth 0 (snd p) 0%Z)) (combine w2 V)))%Q).
        { clearbody s. clear -L1 L2. revert w1 w2 L1 L2. induction V as [|v V IH]; intros [|a w1] [|b w2] L1 L2; try discriminate L1; try discriminate L2; [cbn; ring|]. cbn [combine map fold_right fst snd]. rewrite IH by (cbn in *; lia). ring. }
        rewrite G, <- X1, <- X2. lra.
Qed.
Example segment_example : exact_solver 1 [[0];[1];[2];[3]] (t_solve segment_tools) /\ total_solver 1 (t_solve segment_tools) /\ lrs_contract 1 [[0];[1];[2];[3]] (t_lrs segment_tools) /\ (forall k, length (t_cost segment_tools k) = 1%nat) /\
  integral_hull 5 segment_tools 1 = Ok ([[3];[0]] ++ [[0];[3]]) /\ ~ flat 1 [[3];[0]].
Proof.
  split; [apply best_exact|]. split; [intros k cost _; eexists; reflexivity|]. split; [exact segment_lrs|]. split; [intros k; cbn; now destruct (Nat.even k)|]. split; [vm_compute; reflexivity|].
  intros (a & b & La & (i & Hi) & H). destruct a as [|a [|]]; try discriminate La. pose proof (H [3] ltac:(cbn; auto)) as H1. pose proof (H [0] ltac:(cbn; auto)) as H2. unfold value_at in H1, H2. cbn [combine map fold_right fst snd] in H1, H2. destruct i as [|[|i]]; cbn [nth] in Hi; lia.
Qed.

(** The known points are counted with repetitions, so that known vertices hide new ones: the polygon 0 <= x, y <= 2, x + y <= 3 is left without its vertex (1, 2). *)
Definition polygon : list (list Z) := [[0;0];[1;0];[0;1];[1;1];[2;0];[0;2];[2;1];[1;2]].
Definition polygon_cost (k : nat) : list Z := match k with 4%nat => [3;-1] | 5%nat => [-1;3] | _ => [-1;-1] end.
Definition polygon_tools : tools := mkTools (fun _ cost => Ok (best cost (hd [] polygon) (tl polygon))) polygon_cost (fun _ => [[0;1;0];[0;0;1];[2;-1;-1]]).
Lemma hull_bounded V x a b : in_hull V x -> length a = length x -> (forall v, In v V -> length v = length a /\ value_at a v <= b) -> (qvalue a x <= inject_Z b)%Q.
Proof.
  intros (w & L & P & S1 & Hx) La HV.
  assert (G : (qvalue a x == fold_right Qplus 0 (map (fun p : Q * list Z => fst p * inject_Z (value_at a (snd p))) (combine w V)))%Q).
  { assert (HV1 : forall v, In v V -> length v = length a) by (intros v Hv; apply HV, Hv). clear HV P S1. revert x V L La HV1 Hx. induction a as [|c a IH]; intros [|y x] V L La HV1 Hx; try discriminate La.
    - unfold qvalue. cbn. clear. revert V. induction w as [|t w IH]; intros [|v V]; cbn [combine map fold_right fst snd]; try reflexivity. rewrite <- IH. unfold value_at. cbn. ring.
    - pose proof (Hx 0%nat ltac:(cbn; lia)) as H0. cbn [nth] in H0.
      assert (IH' : (qvalue a x == fold_right Qplus 0 (map (fun p : Q * list Z => fst p * inject_Z (value_at a (snd p))) (combine w (map (@tl Z) V))))%Q).
      { apply IH; [now rewrite map_length|cbn in La; lia| |].
        - intros v Hv. apply in_map_iff in Hv as (u & <- & Hu). specialize (HV1 u Hu). destruct u; [discriminate HV1|]. cbn in *. lia.
        - intros i Hi. specialize (Hx (S i) ltac:(cbn; lia)). cbn [nth] in Hx. rewrite Hx. clear -HV1. revert V HV1. induction w as [|t w IHw]; intros [|v V] HV1; cbn [combine map fold_right fst snd]; try reflexivity. rewrite IHw by (intros u Hu; apply HV1; now right). pose proof (HV1 v (or_introl eq_refl)) as Lv. destruct v; [discriminate Lv|]. cbn [nth tl]. reflexivity. }
      unfold qvalue in *. cbn [combine map fold_right fst snd]. rewrite IH', H0. clear -HV1. revert V HV1. induction w as [|t w IHw]; intros [|v V] HV1; cbn [combine map fold_right fst snd]; try ring. pose proof (HV1 v (or_introl eq_refl)) as Lv. destruct v as [|z v]; [discriminate Lv|]. rewrite <- IHw by (intros u Hu; apply HV1; now right). unfold value_at. cbn [combine map fold_right fst snd nth tl]. rewrite inject_Z_plus, inject_Z_mult. ring. }
  rewrite G. assert (GB : (fold_right Qplus 0 (map (fun p : Q * list Z => fst p * inject_Z (value_at a (snd p))) (combine w V)) <= inject_Z b * fold_right Qplus 0 w)%Q).
  { assert (HV2 : forall v, In v V -> value_at a v <= b) by (intros v Hv; apply HV, Hv). clear -L P HV2. revert V L HV2. induction w as [|t w IH]; intros [|v V] L HV2; try discriminate L; [cbn; lra|]. cbn [combine map fold_right fst snd]. specialize (IH (fun s Hs => P s (or_intror Hs)) V ltac:(cbn in L; lia) (fun u Hu => HV2 u (or_intror Hu))). pose proof (P t (or_introl eq_refl)) as T0. pose proof (HV2 v (or_introl eq_refl)) as H1. rewrite Zle_Qle in H1. nra. }
  rewrite S1 in GB. lra.
Qed.
Theorem stops_too_early_refuted : exists T n points R old new y, (forall k, length (t_cost T k) = n) /\ exact_solver n points (t_solve T) /\ total_solver n (t_solve T) /\
  (forall fuel, (1 <= fuel)%nat -> integral_hull fuel T n = Ok R) /\ R = old ++ new /\ hull_rows n old (t_lrs T old) /\ ~ flat n old /\ In y points /\ ~ in_hull R (map inject_Z y).
Proof.
  set (old := [[0;0];[0;0];[0;0];[0;0];[2;0];[0;2]] : list (list Z)). set (new := [[0;0];[0;0];[2;1]] : list (list Z)). exists polygon_tools, 2%nat, polygon, (old ++ new), old, new, [1;2].
  split; [intros k; cbn [t_cost polygon_tools]; unfold polygon_cost; do 6 (destruct k as [|k]; [reflexivity|]); reflexivity|]. split; [apply best_exact|]. split; [intros k cost _; eexists; reflexivity|].
  split; [intros [|fuel] Hf; [lia|]; vm_compute; reflexivity|]. split; [reflexivity|]. split; [|split; [|split]].
  - intros x Lx. destruct x as [|x1 [|x2 [|]]]; try discriminate Lx. cbn [t_lrs polygon_tools]. split.
    + intros H row Hr.
      assert (B : forall a b, length a = 2%nat -> (forall v, In v old -> value_at a v <= b) -> (qvalue a [x1; x2] <= inject_Z b)%Q).
      { intros a b La HV. apply (hull_bounded old _ a b H La). intros v Hv. split; [|auto]. unfold old in Hv. cbn in Hv. decompose [or] Hv; try contradiction; subst v; now rewrite La. }
      assert (OV : forall a b, (forallb (fun v => value_at a v <=? b) old) = true -> forall v, In v old -> value_at a v <= b) by (intros a b Hb v Hv; rewrite forallb_forall in Hb; apply Z.leb_le, Hb, Hv).
      pose proof (B [-1;0] 0 eq_refl (OV [-1;0] 0 eq_refl)) as B1. pose proof (B [0;-1] 0 eq_refl (OV [0;-1] 0 eq_refl)) as B2. pose proof (B [1;1] 2 eq_refl (OV [1;1] 2 eq_refl)) as B3. unfold qvalue in *. cbn [combine map fold_right fst snd] in B1, B2, B3.
      destruct Hr as [<-|[<-|[<-|[]]]]; cbn [combine map fold_right fst snd]; unfold inject_Z in *; lra.
    + intros H. pose proof (H [0;1;0] ltac:(cbn; auto)) as H1. pose proof (H [0;0;1] ltac:(cbn; auto)) as H2. pose proof (H [2;-1;-1] ltac:(cbn; auto)) as H3. unfold qvalue in H1, H2, H3. cbn [combine map fold_right fst snd] in H1, H2, H3. unfold inject_Z in H1, H2, H3.
      exists [(1 - x1 * (1#2) - x2 * (1#2)); 0; 0; 0; x1 * (1#2); x2 * (1#2)]%Q. split; [reflexivity|]. split; [intros t Ht; cbn in Ht; decompose [or] Ht; try contradiction; subst t; lra|]. split; [cbn; lra|].
      intros i Hi. destruct i as [|[|i]]; [| |cbn in Hi; lia]; cbn [nth old combine map fold_right fst snd]; unfold inject_Z; lra.
  - intros (a & b & La & (i & Hi) & H). destruct a as [|a1 [|a2 [|]]]; try discriminate La. pose proof (H [0;0] ltac:(cbn; auto 10)) as H1. pose proof (H [2;0] ltac:(cbn; auto 10)) as H2. pose proof (H [0;2] ltac:(cbn; auto 10)) as H3. unfold value_at in H1, H2, H3. cbn [combine map fold_right fst snd] in H1, H2, H3. destruct i as [|[|[|i]]]; cbn [nth] in Hi; lia.
  - cbn; auto 10.
  - intros H. pose proof (hull_bounded (old ++ new) (map inject_Z [1;2]) [1;4] 8 H eq_refl) as B. assert (X : forall v, In v (old ++ new) -> length v = 2%nat /\ value_at [1;4] v <= 8) by (intros v Hv; cbn in Hv; decompose [or] Hv; try contradiction; subst v; split; vm_compute; congruence).
    specialize (B X). vm_compute in B. apply B. reflexivity.
Qed.
Print Assumptions stops_too_early_refuted.

(** An equation of lrs is used in one direction only, as the line "linearity" is not read: if the random costs are positive, only the point 5 of the
    segment 0 <= x <= 5 is found.  lrs describes the one point that it is given by the equation 5 - x = 0. *)
Definition one_sided : tools := mkTools (fun _ cost => Ok (best cost [0] [[1];[2];[3];[4];[5]])) (fun _ => [7]) (fun _ => [[5;-1]]).
Theorem equation_one_sided_refuted : exact_solver 1 [[0];[1];[2];[3];[4];[5]] (t_solve one_sided) /\ total_solver 1 (t_solve one_sided) /\
  (forall x, length x = 1%nat -> (in_hull [[5];[5]] x <-> (qvalue [5;-1]%Z (1 :: x) == 0)%Q)) /\ t_lrs one_sided [[5];[5]] = [[5;-1]] /\
  (forall fuel, (1 <= fuel)%nat -> integral_hull fuel one_sided 1 = Ok [[5];[5];[5]]) /\ ~ in_hull [[5];[5];[5]] (map inject_Z [0]).
Proof.
  split; [apply best_exact|]. split; [intros k cost _; eexists; reflexivity|]. split; [|split; [reflexivity|split]].
  - intros x Lx. destruct x as [|x [|]]; try discriminate Lx. unfold qvalue. cbn [combine map fold_right fst snd]. split.
    + intros H. pose proof (hull_bounded _ _ [1] 5 H eq_refl) as B1. pose proof (hull_bounded _ _ [-1] (-5) H eq_refl) as B2.
      specialize (B1 ltac:(intros v [<-|[<-|[]]]; split; vm_compute; congruence)). specialize (B2 ltac:(intros v [<-|[<-|[]]]; split; vm_compute; congruence)). unfold qvalue in B1, B2. cbn [combine map fold_right fst snd] in B1, B2. unfold inject_Z in *. lra.
    + intros H. exists [1; 0]%Q. split; [reflexivity|]. split; [intros t [<-|[<-|[]]]; lra|]. split; [reflexivity|]. intros [|i] Hi; [|cbn in Hi; lia]. cbn [nth combine map fold_right fst snd]. unfold inject_Z in *. lra.
  - intros [|fuel] Hf; [lia|]; vm_compute; reflexivity.
  - intros H. pose proof (hull_bounded _ _ [-1] (-5) H eq_refl) as B2. specialize (B2 ltac:(intros v [<-|[<-|[<-|[]]]]; split; vm_compute; congruence)). vm_compute in B2. apply B2. reflexivity.
Qed.
Print Assumptions equation_one_sided_refuted.
