(** Proofs about the integer hull. *)
From Coq Require Import QArith Lqa.
From Verif Require Import Common ExpSpec Dig DigSpec Hull HullSpec.
Open Scope Z_scope.

Lemma same_eq x y : same x y = true <-> x = y.
Proof. unfold same. destruct (list_eq_dec Z.eq_dec x y); split; congruence. Qed.
Lemma same_refl x : same x x = true.
Proof. now apply same_eq. Qed.

(* the counter *)
Lemma pairs_cons V x new : equal_pairs V (x :: new) = (times x V + equal_pairs V new)%nat.
Proof.
  unfold equal_pairs, times. induction V as [|v V IH]; [reflexivity|]. cbn [fold_right]. rewrite IH. cbn [filter count_occ]. unfold same at 1. destruct (list_eq_dec Z.eq_dec v x) as [E|E]; cbn [length]; lia.
Qed.
Lemma times_in x V : (0 < times x V)%nat <-> In x V.
Proof. unfold times. symmetry. apply (count_occ_In (list_eq_dec Z.eq_dec)). Qed.
Lemma in_dec_l (x : list Z) V : In x V \/ ~ In x V.
Proof. destruct (in_dec (list_eq_dec Z.eq_dec) x V); auto. Qed.
Lemma pairs_all V new : incl new V -> (length new <= equal_pairs V new)%nat.
Proof.
  induction new as [|x new IH]; intros H; [cbn; lia|]. rewrite pairs_cons. assert (X : (0 < times x V)%nat) by (apply times_in, H; now left). specialize (IH (fun y Hy => H y (or_intror Hy))). cbn [length]. lia.
Qed.
Lemma pairs_single V new : (forall y, In y new -> (times y V <= 1)%nat) -> (equal_pairs V new <= length new)%nat.
Proof.
  induction new as [|x new IH]; intros H. { clear H. unfold equal_pairs. induction V as [|v V IHV]; cbn in *; lia. }
  rewrite pairs_cons. specialize (IH (fun y Hy => H y (or_intror Hy))). specialize (H x (or_introl eq_refl)). cbn [length]. lia.
Qed.
Lemma repeated_or_not V new : (exists y, In y new /\ (2 <= times y V)%nat) \/ (forall y, In y new -> (times y V <= 1)%nat).
Proof.
  induction new as [|x new IH]; [right; intros y []|]. destruct IH as [(y & Hy & H)|H]; [left; exists y; split; [now right|exact H]|].
  destruct (le_lt_dec (times x V) 1) as [L|L]; [right; intros y [<-|Hy]; auto|left; exists x; split; [now left|lia]].
Qed.
Lemma in_all_or_not (V new : list (list Z)) : incl new V \/ (exists x, In x new /\ ~ In x V).
Proof.
  induction new as [|x new IH]; [left; intros y []|]. destruct IH as [H|(y & Hy & N)]; [|right; exists y; split; [now right|exact N]].
  destruct (in_dec_l x V) as [A|A]; [left; intros y [<-|Hy]; auto|right; exists x; split; [now left|exact A]].
Qed.
Lemma pairs_strict V new x : In x new -> ~ In x V -> (forall y, In y new -> (times y V <= 1)%nat) -> (equal_pairs V new < length new)%nat.
Proof.
  induction new as [|z new IH]; intros Hx N H; [destruct Hx|]. rewrite pairs_cons. cbn [length]. pose proof (pairs_single V new (fun y Hy => H y (or_intror Hy))) as S0. pose proof (H z (or_introl eq_refl)) as Hz.
  destruct Hx as [->|Hx]; [|specialize (IH Hx N (fun y Hy => H y (or_intror Hy))); lia].
  assert (~ (0 < times x V)%nat) by (intros A; apply N, times_in, A). lia.
Qed.
Lemma check_false V new : check_vertices V new = false -> incl new V \/ (exists x y, In x new /\ ~ In x V /\ In y new /\ (2 <= times y V)%nat).
Proof.
  unfold check_vertices. rewrite Nat.ltb_ge. intros H. destruct (in_all_or_not V new) as [A|(x & Hx & N)]; [now left|right]. destruct (repeated_or_not V new) as [(y & Hy & T)|T]; [exists x, y; auto|]. pose proof (pairs_strict V new x Hx N T). lia.
Qed.
Lemma check_true V new : check_vertices V new = true -> exists x, In x new /\ ~ In x V.
Proof. unfold check_vertices. rewrite Nat.ltb_lt. intros H. destruct (in_all_or_not V new) as [A|E]; [|exact E]. pose proof (pairs_all V new A). lia. Qed.

(* values of integer points *)
Lemma qvalue_inject a : forall x, (qvalue a (map inject_Z x) == inject_Z (value_at a x))%Q.
Proof.
  unfold qvalue, value_at. induction a as [|b a IH]; intros [|y x]; try reflexivity. cbn [map combine fold_right fst snd]. rewrite IH, inject_Z_plus, inject_Z_mult. reflexivity.
Qed.
Lemma value_opp_l a : forall x, value_at (map Z.opp a) x = - value_at a x.
Proof. unfold value_at. induction a as [|b a IH]; intros [|y x]; cbn [map combine fold_right fst snd]; try reflexivity. rewrite IH. lia. Qed.
Lemma value_zero a : forallb (Z.eqb 0) a = true -> forall x, value_at a x = 0.
Proof.
  unfold value_at. induction a as [|b a IH]; intros H [|y x]; cbn [map combine fold_right fst snd forallb] in *; try reflexivity. apply andb_prop in H as (H1 & H2). apply Z.eqb_eq in H1. rewrite (IH H2). lia.
Qed.
(* hulls *)
Lemma sum_app (f : Q * list Z -> Q) l1 l2 : (fold_right Qplus 0 (map f (l1 ++ l2)) == fold_right Qplus 0 (map f l1) + fold_right Qplus 0 (map f l2))%Q.
Proof. induction l1 as [|a l1 IH]; cbn [app map fold_right]; [ring|rewrite IH; ring]. Qed.
Lemma in_hull_more V W x : in_hull V x -> in_hull (V ++ W) x.
Proof.
  intros (w & L & P & S1 & C). exists (w ++ map (fun _ => 0%Q) W). split; [rewrite !app_length, map_length; lia|]. split; [|split].
  - intros t H. apply in_app_or in H as [H|H]; [auto|]. apply in_map_iff in H as (z & <- & _). lra.
  - assert (Z0 : (fold_right Qplus 0 (map (fun _ : list Z => 0) W) == 0)%Q) by (clear; induction W as [|a W IH]; cbn [map fold_right]; [reflexivity|rewrite IH; ring]).
    revert S1. generalize (1%Q). clear -Z0. induction w as [|a w IH]; intros q S1; cbn [app fold_right] in *; [now rewrite Z0|]. rewrite (IH _ (Qeq_refl _)). exact S1.
  - intros i Hi. rewrite (C i Hi). assert (CA : combine (w ++ map (fun _ => 0%Q) W) (V ++ W) = combine w V ++ combine (map (fun _ => 0%Q) W) W).
    { clear -L. revert V L. induction w as [|a w IH]; intros [|v V] L; try discriminate L; [reflexivity|]. cbn [app combine]. rewrite IH by (cbn in L; lia). reflexivity. }
    rewrite CA, sum_app.
    assert (Z1 : (fold_right Qplus 0 (map (fun p : Q * list Z => fst p * inject_Z (nth i (snd p) 0%Z)) (combine (map (fun _ => 0) W) W)) == 0)%Q) by (clear; induction W as [|a W IH]; cbn [map combine fold_right fst snd]; [reflexivity|rewrite IH; ring]).
    rewrite Z1. ring.
Qed.
Lemma in_hull_self V v : In v V -> in_hull V (map inject_Z v).
Proof.
  intros H. apply in_split in H as (A & B & ->). exists (map (fun _ => 0%Q) A ++ 1%Q :: map (fun _ => 0%Q) B). split; [rewrite !app_length, map_length; cbn [length]; rewrite map_length; lia|].
  assert (Z0 : forall W : list (list Z), (fold_right Qplus 0 (map (fun _ : list Z => 0) W) == 0)%Q) by (intros W; induction W as [|a W IH]; cbn [map fold_right]; [reflexivity|rewrite IH; ring]).
  split; [|split].
  - intros t H. apply in_app_or in H as [H|[<-|H]]; [|lra|]; apply in_map_iff in H as (z & <- & _); lra.
  - induction A as [|a A IH]; cbn [map app fold_right]; [rewrite Z0; ring|rewrite IH; ring].
  - intros i Hi. rewrite map_length in Hi.
    assert (Z1 : forall W : list (list Z), (fold_right Qplus 0 (map (fun p : Q * list Z => fst p * inject_Z (nth i (snd p) 0%Z)) (combine (map (fun _ => 0) W) W)) == 0)%Q) by (intros W; induction W as [|a W IH]; cbn [map combine fold_right fst snd]; [reflexivity|rewrite IH; ring]).
    induction A as [|a A IH]; cbn [map app combine fold_right fst snd].
    + rewrite Z1. rewrite (nth_indep _ 0%Q (inject_Z 0)) by (rewrite map_length; exact Hi). rewrite map_nth. ring.
    + rewrite <- IH. ring.
Qed.

(* the solver *)
Section Hull.
Context (T : tools) (n : nat) (points : list (list Z)).
Hypothesis Hc : forall k, length (t_cost T k) = n.
Hypothesis He : exact_solver n points (t_solve T).
Hypothesis Hl : lrs_contract n points (t_lrs T).

Lemma solve_costs_ok : forall costs k new, Forall (fun c => length c = n) costs -> solve_costs T k costs = Ok new ->
  length new = length costs /\ incl new points /\ forall c, In c costs -> exists x, In x new /\ forall y, In y points -> value_at c y <= value_at c x.
Proof.
  induction costs as [|c costs IH]; intros k new F E; cbn [solve_costs] in E.
  - injection E as <-. split; [reflexivity|]. split; [intros x []|intros c []].
  - destruct (t_solve T k c) as [v|] eqn:E1; [|discriminate E]. cbn [bind] in E. destruct (solve_costs T (S k) costs) as [vs|] eqn:E2; [|discriminate E]. cbn [bind] in E. injection E as <-.
    pose proof (Forall_inv F) as F1. cbv beta in F1. destruct (He k c v F1 E1) as (I1 & M1). destruct (IH (S k) vs (Forall_inv_tail F) E2) as (L & I2 & M2).
    split; [cbn; lia|]. split; [intros x [<-|Hx]; auto|]. intros d [<-|Hd]; [exists v; split; [now left|exact M1]|]. destruct (M2 d Hd) as (x & Hx & Mx). exists x. split; [now right|exact Mx].
Qed.
Lemma normals_length l : Forall (fun c => length c = n) (normals (t_lrs T l)).
Proof.
  apply Forall_forall. intros h Hh. unfold normals in Hh. apply filter_In in Hh as (Hh & _). apply in_map_iff in Hh as (row & <- & Hr). rewrite map_length. destruct Hl as (L & _). specialize (L l row Hr). destruct row; [discriminate L|]. cbn in *. lia.
Qed.
Lemma costs_for_length k hyper : Forall (fun c => length c = n) hyper -> Forall (fun c => length c = n) (costs_for T n k hyper).
Proof. destruct hyper as [|h l]; [|auto]. intros _. cbn [costs_for]. apply Forall_map, Forall_forall. auto. Qed.
Lemma get_ok k hyper new : Forall (fun c => length c = n) hyper -> get_vertices T n k hyper = Ok new -> length new = length (costs_for T n k hyper) /\ incl new points.
Proof. intros F E. destruct (solve_costs_ok _ k new (costs_for_length k hyper F) E) as (L & I0 & _). auto. Qed.

Lemma push_ok A B C : push_vector A B = Ok C -> C = A ++ B.
Proof. unfold push_vector. destruct (_ && _)%bool; [discriminate|]. now injection 1. Qed.
Lemma get_random_length k new : get_vertices T n k [] = Ok new -> length new = n.
Proof. intros E. apply get_ok in E as (L & _); [|constructor]. cbn [costs_for] in L. now rewrite map_length, seq_length in L. Qed.
Lemma start_ok : forall r k V k' V', start T n k r V = Ok (k', V') -> incl V points -> incl V' points /\ (length V <= length V')%nat.
Proof.
  induction r as [|r IH]; intros k V k' V' E I0; cbn [start] in E; [injection E as <- <-; auto|].
  destruct (get_vertices T n k []) as [new|] eqn:E1; [|discriminate E]. cbn [bind] in E. destruct (push_vector V new) as [V1|] eqn:E2; [|discriminate E]. cbn [bind] in E. apply push_ok in E2. subst V1.
  destruct (get_ok k [] new ltac:(constructor) E1) as (_ & I1). destruct (IH _ _ _ _ E) as (A & B); [now apply incl_app|]. rewrite app_length in B. split; [exact A|lia].
Qed.
(* all new vertices known: complete *)
Lemma known_complete V k new : V <> [] -> incl V points -> ~ flat n V -> (forall y, In y points -> length y = n) -> get_vertices T n k (normals (t_lrs T V)) = Ok new -> incl new V ->
  forall y, In y points -> in_hull V (map inject_Z y).
Proof.
  intros N I0 NF LP E I1 y Hy. destruct Hl as (LL & HL). destruct (HL V N I0 NF (map inject_Z y)) as (_ & B); [rewrite map_length; auto|]. apply B. intros row Hr.
  change (1%Q :: map inject_Z y) with (map inject_Z (1 :: y)). rewrite qvalue_inject. change 0%Q with (inject_Z 0). rewrite <- Zle_Qle.
  assert (RV : forall v, In v V -> 0 <= value_at row (1 :: v)).
  { intros v Hv. destruct (HL V N I0 NF (map inject_Z v)) as (A & _); [rewrite map_length; auto|]. specialize (A (in_hull_self V v Hv) row Hr). change (1%Q :: map inject_Z v) with (map inject_Z (1 :: v)) in A. rewrite qvalue_inject in A. change 0%Q with (inject_Z 0) in A. rewrite <- Zle_Qle in A. exact A. }
  specialize (LL V row Hr). destruct row as [|b a]; [discriminate LL|].
  assert (VB : forall v, value_at (b :: a) (1 :: v) = b + value_at a v) by (intros v; unfold value_at; cbn [combine map fold_right fst snd]; lia).
  destruct (forallb (Z.eqb 0) (map Z.opp a)) eqn:Z0.
  - assert (ZV : forall v, value_at a v = 0) by (intros v; pose proof (value_zero _ Z0 v) as X; rewrite value_opp_l in X; lia).
    destruct V as [|v V]; [contradiction|]. specialize (RV v ltac:(now left)). rewrite VB, ZV in *. exact RV.
  - assert (HI : In (map Z.opp a) (normals (t_lrs T V))) by (unfold normals; apply filter_In; split; [apply in_map_iff; exists (b :: a); auto|now rewrite Z0]).
    assert (HI' : In (map Z.opp a) (costs_for T n k (normals (t_lrs T V)))) by (unfold costs_for; destruct (normals (t_lrs T V)); [destruct HI|exact HI]).
    destruct (solve_costs_ok _ k new (costs_for_length k _ (normals_length V)) E) as (_ & _ & M). destruct (M _ HI') as (x & Hx & Mx). specialize (Mx y Hy). rewrite !value_opp_l in Mx. specialize (RV x (I1 x Hx)). rewrite VB in *. lia.
Qed.
Definition ends_well (R : list (list Z)) : Prop :=
  exists old new, R = old ++ new /\ old <> [] /\
    (incl new old \/ exists x y, In x new /\ ~ In x old /\ In y new /\ (2 <= times y old)%nat) /\
    (~ flat n old -> incl new old -> forall y, In y points -> in_hull R (map inject_Z y)).
Lemma loop_ok : (forall y, In y points -> length y = n) -> forall fuel k V R, hull_loop fuel T n k V = Ok R -> V <> [] -> incl V points -> incl R points /\ ends_well R.
Proof.
  intros LP. induction fuel as [|f IH]; intros k V R E N I0; [discriminate E|]. cbn [hull_loop] in E.
  destruct (get_vertices T n k (normals (t_lrs T V))) as [new|] eqn:E1; [|discriminate E]. cbn [bind] in E. destruct (push_vector V new) as [V1|] eqn:E2; [|discriminate E]. cbn [bind] in E. apply push_ok in E2. subst V1.
  destruct (get_ok k _ new (normals_length V) E1) as (_ & I1). destruct (check_vertices V new) eqn:C.
  - apply (IH _ _ _ E); [destruct V; [contradiction|discriminate]|now apply incl_app].
  - injection E as <-. split; [now apply incl_app|]. exists V, new. split; [reflexivity|]. split; [exact N|]. split; [now apply check_false|]. intros NF I2 y Hy. apply in_hull_more. apply (known_complete V k new N I0 NF LP E1 I2 y Hy).
Qed.
Lemma integral_hull_ok fuel R : (1 <= n)%nat -> (forall y, In y points -> length y = n) -> integral_hull fuel T n = Ok R -> incl R points /\ ends_well R.
Proof.
  intros Hn LP E. unfold integral_hull in E. destruct (get_vertices T n 0 []) as [V|] eqn:E1; [|discriminate E]. cbn [bind] in E. destruct (start T n n n V) as [(k, V')|] eqn:E2; [|discriminate E]. cbn [bind] in E.
  pose proof (get_random_length _ _ E1) as L. destruct (get_ok 0 [] V ltac:(constructor) E1) as (_ & I0). destruct (start_ok _ _ _ _ _ E2 I0) as (I1 & L1). apply (loop_ok LP _ _ _ _ E); [destruct V'; [cbn in L1; lia|discriminate]|exact I1].
Qed.

(* termination *)
Hypothesis Ht : total_solver n (t_solve T).
Lemma solve_costs_total : forall costs k, Forall (fun c => length c = n) costs -> exists new, solve_costs T k costs = Ok new.
Proof.
  induction costs as [|c costs IH]; intros k F; [now exists []|]. pose proof (Forall_inv F) as F1. cbv beta in F1. destruct (Ht k c F1) as (v & E1). destruct (IH (S k) (Forall_inv_tail F)) as (vs & E2). exists (v :: vs). cbn [solve_costs]. now rewrite E1, E2.
Qed.
Lemma get_total k hyper : Forall (fun c => length c = n) hyper -> exists new, get_vertices T n k hyper = Ok new.
Proof. intros F. apply solve_costs_total, costs_for_length, F. Qed.
Lemma start_total : forall r k V, (n <= length V)%nat -> exists k' V', start T n k r V = Ok (k', V').
Proof.
  induction r as [|r IH]; intros k V L; [now exists k, V|]. cbn [start]. destruct (get_total k [] ltac:(constructor)) as (new & E1). rewrite E1. cbn [bind]. pose proof (get_random_length _ _ E1) as L1.
  assert (P : push_vector V new = Ok (V ++ new)). { unfold push_vector. destruct (length V <? length new)%nat eqn:X; [apply Nat.ltb_lt in X; lia|]. now rewrite Bool.andb_false_r. }
  rewrite P. cbn [bind]. apply IH. rewrite app_length. lia.
Qed.
Definition missing (V : list (list Z)) : nat := length (filter (fun p => if in_dec (list_eq_dec Z.eq_dec) p V then false else true) points).
Lemma filter_le {A} (f g : A -> bool) l : (forall x, In x l -> f x = true -> g x = true) -> (length (filter f l) <= length (filter g l))%nat.
Proof.
  induction l as [|a l IH]; intros H; [reflexivity|]. cbn [filter]. specialize (IH (fun x Hx => H x (or_intror Hx))). destruct (f a) eqn:Ea; [rewrite (H a (or_introl eq_refl) Ea); cbn; lia|destruct (g a); cbn; lia].
Qed.
Lemma filter_lt {A} (f g : A -> bool) l z : (forall x, In x l -> f x = true -> g x = true) -> In z l -> f z = false -> g z = true -> (length (filter f l) < length (filter g l))%nat.
Proof.
  induction l as [|a l IH]; intros H Hz Fz Gz; [destruct Hz|]. cbn [filter]. pose proof (filter_le f g l (fun x Hx => H x (or_intror Hx))) as LE. destruct Hz as [->|Hz]; [rewrite Fz, Gz; cbn; lia|].
  specialize (IH (fun x Hx => H x (or_intror Hx)) Hz Fz Gz). destruct (f a) eqn:Ea; [rewrite (H a (or_introl eq_refl) Ea); cbn; lia|destruct (g a); cbn; lia].
Qed.
Lemma missing_less V new x : In x new -> ~ In x V -> In x points -> (missing (V ++ new) < missing V)%nat.
Proof.
  intros H1 H2 H3. unfold missing. apply filter_lt with (z := x); [|exact H3| |].
  - intros y _. destruct (in_dec _ y (V ++ new)) as [A|A]; [discriminate|]. intros _. destruct (in_dec _ y V) as [B|B]; [|reflexivity]. exfalso. apply A, in_or_app. now left.
  - destruct (in_dec _ x (V ++ new)) as [A|A]; [reflexivity|]. exfalso. apply A, in_or_app. now right.
  - destruct (in_dec _ x V) as [B|B]; [contradiction|reflexivity].
Qed.
Lemma costs_rows V k : (length V < length (costs_for T n k (normals (t_lrs T V))))%nat -> (n <= length V)%nat -> (length V < length (t_lrs T V))%nat.
Proof.
  intros X L. destruct (normals (t_lrs T V)) as [|h l] eqn:E; [cbn [costs_for] in X; rewrite map_length, seq_length in X; lia|]. unfold costs_for in X. rewrite <- E in X. unfold normals in X.
  assert (FL : forall (f : list Z -> bool) r, (length (filter f r) <= length r)%nat) by (intros f r; induction r as [|a r IH]; [reflexivity|]; cbn [filter]; destruct (f a); cbn [length]; lia).
  specialize (FL (fun h => negb (forallb (Z.eqb 0) h)) (map (fun row => map Z.opp (tl row)) (t_lrs T V))). rewrite map_length in FL. lia.
Qed.
Lemma loop_total : forall m k V, V <> [] -> (n <= length V)%nat -> incl V points -> (missing V <= m)%nat ->
  (exists R, forall fuel, (m < fuel)%nat -> hull_loop fuel T n k V = Ok R) \/
  ((exists old, incl old points /\ (n <= length old < length (t_lrs T old))%nat) /\ forall fuel, (m < fuel)%nat -> hull_loop fuel T n k V = Err OutOfBounds).
Proof.
  induction m as [|m IH]; intros k V N NL I0 M.
  all: destruct (get_total k (normals (t_lrs T V)) (normals_length V)) as (new & E1); destruct (get_ok k _ new (normals_length V) E1) as (L1 & I1).
  all: assert (CL : forall j, length (costs_for T n j (normals (t_lrs T V))) = length (costs_for T n 0 (normals (t_lrs T V)))) by (intros j; unfold costs_for; destruct (normals (t_lrs T V)); [now rewrite !map_length, !seq_length|reflexivity]).
  all: destruct (push_vector V new) as [V1|e] eqn:E2.
  all: try (right; split; [exists V; split; [exact I0|]; unfold push_vector in E2; destruct (length V <? length new)%nat eqn:X; [apply Nat.ltb_lt in X; split; [exact NL|]; rewrite L1 in X; exact (costs_rows V k X NL)|rewrite Bool.andb_false_r in E2; discriminate E2]|];
    intros [|f] Hf; [lia|]; cbn [hull_loop]; rewrite E1; cbn [bind]; rewrite E2; cbn [bind]; unfold push_vector in E2; destruct (_ && _)%bool; [now injection E2 as <-|discriminate E2]).
  all: apply push_ok in E2 as E3; subst V1; destruct (check_vertices V new) eqn:C.
  all: try (left; exists (V ++ new); intros [|f] Hf; [lia|]; cbn [hull_loop]; rewrite E1; cbn [bind]; rewrite E2; cbn [bind]; now rewrite C).
  all: destruct (check_true _ _ C) as (x & Hx & Nx); pose proof (missing_less V new x Hx Nx (I1 x Hx)) as ML.
  { lia. }
  set (k2 := (k + length (costs_for T n k (normals (t_lrs T V))))%nat).
  destruct (IH k2 (V ++ new)) as [(R & H)|(W & H)]; [destruct V; [contradiction|discriminate]|rewrite app_length; lia|now apply incl_app|lia| |].
  - left. exists R. intros [|f] Hf; [lia|]. cbn [hull_loop]. rewrite E1. cbn [bind]. rewrite E2. cbn [bind]. rewrite C. apply H. lia.
  - right. split; [exact W|]. intros [|f] Hf; [lia|]. cbn [hull_loop]. rewrite E1. cbn [bind]. rewrite E2. cbn [bind]. rewrite C. apply H. lia.
Qed.
Lemma missing_bound V : (missing V <= length points)%nat.
Proof. unfold missing. generalize (fun p => if in_dec (list_eq_dec Z.eq_dec) p V then false else true). clear. intros f. generalize points. intros l. induction l as [|a l IH]; [reflexivity|]. cbn [filter]. destruct (f a); cbn [length]; lia. Qed.
Lemma hull_total : (1 <= n)%nat ->
  (exists R, forall fuel, (length points < fuel)%nat -> integral_hull fuel T n = Ok R) \/
  ((exists old, incl old points /\ (n <= length old < length (t_lrs T old))%nat) /\ forall fuel, (length points < fuel)%nat -> integral_hull fuel T n = Err OutOfBounds).
Proof.
  intros Hn. destruct (get_total 0 [] ltac:(constructor)) as (V & E1). pose proof (get_random_length _ _ E1) as L. destruct (get_ok 0 [] V ltac:(constructor) E1) as (_ & I0). destruct (start_total n n V ltac:(lia)) as (k & V' & E2). destruct (start_ok _ _ _ _ _ E2 I0) as (I1 & L1).
  destruct (loop_total (length points) k V') as [(R & H)|(W & H)]; [destruct V'; [cbn in L1; lia|discriminate]|lia|exact I1|apply missing_bound| |].
  - left. exists R. intros fuel Hf. unfold integral_hull. rewrite E1. cbn [bind]. rewrite E2. cbn [bind]. now apply H.
  - right. split; [exact W|]. intros fuel Hf. unfold integral_hull. rewrite E1. cbn [bind]. rewrite E2. cbn [bind]. now apply H.
Qed.
End Hull.
