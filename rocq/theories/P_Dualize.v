(** C94: dualizing a cone.  Specification: DualizeSpec.v. *)
From Coq Require Import QArith Lqa.
From Verif Require Import Common ZMat Hermite Det DetProofs RatVec RatVecSpec Util UtilProofs Piped PipedSpec PipedProofs PipedProofs2 PipedProofs3 PipedProofs4 P_Piped ConeSpec CountSpec TriangSpec TriangProofs VertexCones VertexConesSpec NormalizeSpec Dualize DualizeSpec DualizeProofs.
Open Scope Z_scope.

(** What the library that is called for the rays V is trusted with. *)
Definition trusted (T : dtools) (n : nat) (V : list (list Z)) : Prop :=
  match dt_method T with
  | With4ti2 => generators_contract (dt_rays T) (lifted V) (n + length V) (repeat true (length V) ++ repeat false n)
  | WithCdd => cdd_contract (dt_cdd T) (map (map Z.opp) V) n /\ spans n V
  end.
(** A cone that is given by its rays: if there are n of them, they are independent. *)
Definition admissible (T : dtools) (n : nat) (V : list (list Z)) : Prop :=
  Forall (fun r => length r = n) V /\ (length V = n -> lin_indep n V) /\ (length V <> n -> trusted T n V).

(** The polar cone comes out, with the old rays as its facets. *)
Theorem dualized_is_polar : forall T n V k1 k2, admissible T n V -> exists c, dualize T n (mkD V [] [] [] k1 k2) = Ok c /\ d_facets c = V /\ d_equalities c = [] /\ polar_of n V (d_rays c) (d_subspace c).
Proof.
  intros T n V k1 k2 (FV & HI & HT). unfold dualize. cbn [d_facets d_rays]. destruct (length V =? n)%nat eqn:EL.
  - apply Nat.eqb_eq in EL. destruct (facets_dual_to_rays n V (conj EL FV) (HI EL)) as (s & E & _). rewrite E. cbn [bind]. eexists. split; [reflexivity|]. cbn. split; [reflexivity|]. split; [reflexivity|]. exact (polar_simplicial n V s (conj EL FV) (HI EL) E).
  - apply Nat.eqb_neq in EL. specialize (HT EL). unfold trusted in HT. destruct (dt_method T).
    + unfold with_cdd. cbn [d_subspace d_rays]. eexists. split; [reflexivity|]. cbn. split; [reflexivity|]. split; [reflexivity|]. now apply polar_cdd.
    + unfold with_4ti2. cbn [d_facets d_subspace d_rays]. unfold generators_contract in HT. destruct (dt_rays T _ _ _) as (rs, sub). eexists. split; [reflexivity|]. cbn. split; [reflexivity|]. split; [reflexivity|]. now apply polar_4ti2.
Qed.
Print Assumptions dualized_is_polar.
(** Dualized twice it is the same cone, now with facets and equations that describe it. *)
Theorem dualized_twice_describes_cone : forall T n V k1 k2, admissible T n V -> V <> [] ->
  exists c c', dualize T n (mkD V [] [] [] k1 k2) = Ok c /\ dualize T n c = Ok c' /\ d_rays c' = V /\
  forall x, in_gen n V x <-> below n (d_facets c') x /\ forall e, In e (d_equalities c') -> (sumq n (fun k => x k * zpoint e k) == 0)%Q.
Proof.
  intros T n V k1 k2 A NE. destruct (dualized_is_polar T n V k1 k2 A) as (c & E & F & Q & P). exists c, (swap_data c). split; [exact E|]. split; [unfold dualize; rewrite F; destruct V; [contradiction|reflexivity]|]. split; [exact F|].
  intros x. rewrite (bipolar_gen n V _ _ x P). apply below_lines.
Qed.
Print Assumptions dualized_twice_describes_cone.
(** A simplicial cone: also the two determinants. *)
Theorem dualized_simplicial : forall T n V k1 k2, n_vectors n V -> lin_indep n V -> exists c, dualize T n (mkD V [] [] [] k1 k2) = Ok c /\ d_subspace c = [] /\ n_vectors n (d_rays c) /\
  d_dual_det c = det n (fun i j => vat V i j) /\ d_det c = det n (fun i j => vat (d_rays c) i j) /\
  (forall i j, (i < n)%nat -> (j < n)%nat -> i <> j -> sumz n (fun k => vat V i k * vat (d_rays c) j k) = 0) /\ (forall i, (i < n)%nat -> sumz n (fun k => vat V i k * vat (d_rays c) i k) < 0) /\
  (forall j g, (j < n)%nat -> (forall k, (k < n)%nat -> (g | vat (d_rays c) j k)) -> (g | 1)).
Proof.
  intros T n V k1 k2 NV LI. destruct (facets_dual_to_rays n V NV LI) as (s & E & _ & (NF & _ & PR & DP & PM) & D1 & D2 & _). unfold dualize. cbn [d_facets d_rays]. rewrite (proj1 NV), Nat.eqb_refl, E. cbn [bind]. eexists. split; [reflexivity|]. cbn [swap_data d_rays d_facets d_subspace d_equalities d_det d_dual_det].
  split; [reflexivity|]. split; [exact NF|]. split; [exact D1|]. split; [exact D2|]. split; [|split].
  - intros i j Hi Hj N. rewrite (PR i j Hi Hj). apply Nat.eqb_neq in N. now rewrite N.
  - intros i Hi. rewrite (PR i i Hi Hi), Nat.eqb_refl. specialize (DP i Hi). lia.
  - intros j g Hj H. exact (PM j Hj g H).
Qed.
Print Assumptions dualized_simplicial.
(** n dependent rays: abort. *)
Theorem dependent_rays_abort : forall T n V k1 k2, length V = n -> ~ lin_indep n V -> dualize T n (mkD V [] [] [] k1 k2) = Err AssertFail.
Proof. intros T n V k1 k2 L N. unfold dualize. cbn [d_facets d_rays]. rewrite L, Nat.eqb_refl, (facets_dependent_rays n V L N). reflexivity. Qed.
Print Assumptions dependent_rays_abort.
(** With 4ti2 the new rays of a full-dimensional cone are exactly the extreme rays of the polar cone, each once, and there is no subspace. *)
Theorem dualized_irredundant : forall T n V k1 k2 c, dt_method T = With4ti2 -> length V <> n -> spans n V ->
  ray_contract (dt_rays T) (lifted V) (n + length V) (repeat true (length V) ++ repeat false n) ->
  dualize T n (mkD V [] [] [] k1 k2) = Ok c -> d_subspace c = [] /\
  (forall f, In f (d_rays c) -> length f = n /\ extreme (below n V) n (zpoint f)) /\
  (forall y, extreme (below n V) n y -> exists f q, In f (d_rays c) /\ (0 < q)%Q /\ forall k, (k < n)%nat -> (y k == q * zpoint f k)%Q) /\
  (forall i j q, (i < length (d_rays c))%nat -> (j < length (d_rays c))%nat -> (0 < q)%Q -> (forall k, (k < n)%nat -> (zpoint (nth i (d_rays c) []) k == q * zpoint (nth j (d_rays c) []) k)%Q) -> i = j).
Proof.
  intros T n V k1 k2 c EM NL Sp RC E. unfold dualize in E. cbn [d_facets d_rays] in E. apply Nat.eqb_neq in NL. rewrite NL, EM in E. unfold with_4ti2 in E. cbn [d_facets d_subspace d_rays] in E. unfold ray_contract in RC. destruct (dt_rays T _ _ _) as (rs, sub). injection E as <-. cbn.
  pose proof (spans_pointed n V Sp) as PT. destruct RC as (R1 & R2). destruct (R2 PT) as (A & B & _ & U). assert (sub = []) as -> by (apply R1, PT).
  split; [reflexivity|]. split; [|split].
  - intros f Hf. apply in_project in Hf as (v & Hv & ->). destruct (A v Hv) as (_ & X). split; [unfold proj1v; now rewrite map_length, seq_length|]. apply extreme_down in X. destruct X as (X1 & X2 & X3).
    assert (PP : forall k, (k < n)%nat -> (zpoint (proj1v n V v) k == last_of V (zpoint v) k)%Q) by (intros k Hk; now rewrite proj_point).
    split; [|split].
    + intros r Hr. rewrite (sumq_ext n _ (fun k => last_of V (zpoint v) k * zpoint r k)%Q); [exact (X1 r Hr)|]. intros k Hk. now rewrite PP.
    + intros Z0. apply X2. intros k Hk. rewrite <- PP by exact Hk. now apply Z0.
    + intros x y Bx By S0. destruct (X3 x y Bx By) as (q & Hq); [intros k Hk; rewrite <- PP by exact Hk; now apply S0|]. exists q. intros k Hk. rewrite PP by exact Hk. now apply Hq.
  - intros y Ey. destruct (B _ (extreme_up n V y Ey)) as (r & q & Hr & Hq & X). exists (proj1v n V r), q. split; [apply in_project; now exists r|]. split; [exact Hq|]. intros k Hk. rewrite proj_point by exact Hk. rewrite <- (up_last n V y k). unfold last_of. apply X. lia.
  - assert (ONE : forall i j q, (i < length rs)%nat -> (j < length rs)%nat -> (0 < q)%Q -> (forall k, (k < n)%nat -> (zpoint (proj1v n V (nth i rs [])) k == q * zpoint (proj1v n V (nth j rs [])) k)%Q) -> i = j).
    { assert (LT : forall i j q, (i < j)%nat -> (j < length rs)%nat -> (0 < q)%Q -> ~ forall k, (k < n)%nat -> (zpoint (proj1v n V (nth i rs [])) k == q * zpoint (proj1v n V (nth j rs [])) k)%Q).
      { intros i j q Hij Hj Hq X. apply (U i j q Hij Hj Hq). intros k Hk. assert (Hi : (i < length rs)%nat) by lia. destruct (A (nth i rs []) (nth_In rs [] Hi)) as (_ & (Ci & _)). destruct (A (nth j rs []) (nth_In rs [] Hj)) as (_ & (Cj & _)).
        rewrite (LC_up n V _ Ci k Hk), (LC_up n V _ Cj k Hk). apply up_scal; [|exact Hk]. intros l Hl. specialize (X l Hl). rewrite !proj_point in X by exact Hl. exact X. }
      intros i j q Hi Hj Hq X. destruct (Nat.lt_trichotomy i j) as [L|[L|L]]; [exfalso; now apply (LT i j q)|exact L|]. exfalso. apply (LT j i (/ q)%Q L Hi); [now apply Qinv_lt_0_compat|]. intros k Hk. rewrite (X k Hk). field. intro Z0. rewrite Z0 in Hq. discriminate Hq. }
    intros i j q Hi Hj Hq X. unfold project in *. rewrite rev_length, map_length in Hi, Hj. fold (proj1v n V) in X.
    assert (NT : forall i, (i < length rs)%nat -> nth i (rev (map (fun r => map (fun j => nth (length V + j) r 0) (seq 0 n)) rs)) [] = proj1v n V (nth (length rs - S i) rs [])).
    { intros a Ha. rewrite rev_nth by now rewrite map_length. rewrite map_length. rewrite (nth_indep _ [] (proj1v n V [])) by (rewrite map_length; lia). exact (map_nth (proj1v n V) rs [] (length rs - S a)). }
    assert (K : (length rs - S i)%nat = (length rs - S j)%nat); [|lia]. apply (ONE _ _ q); [lia|lia|exact Hq|]. intros k Hk. specialize (X k Hk). now rewrite !NT in X by assumption.
Qed.
Print Assumptions dualized_irredundant.

(** The system given to zsolve has exactly the integer points of the cone as its solutions. *)
Theorem zsolve_gets_the_cone : forall T n V S x, admissible T n V -> V <> [] -> cone_system T n V = Ok S -> (solves n S x <-> cone_point n V x).
Proof.
  intros T n V S x A NE E. destruct (dualized_twice_describes_cone T n V 0 0 A NE) as (c & c' & E1 & E2 & _ & H). unfold cone_system in E. rewrite E1 in E. cbn [bind] in E. rewrite E2 in E. cbn [bind] in E.
  rewrite (system_solutions n _ _ S x E). unfold cone_point. rewrite H. tauto.
Qed.
Print Assumptions zsolve_gets_the_cone.
(** So zsolve does what hilbert-from-rays needs (C93), for cones without lines. *)
Theorem zsolve_contract_met : forall T n V zsolve, (forall t, incl t V -> t <> [] -> admissible T n t) -> zsolve_is_exact n zsolve ->
  (forall y, in_gen n V y -> in_gen n V (fun k => - y k)%Q -> forall k, (k < n)%nat -> (y k == 0)%Q) ->
  zsolve_contract n V (fun k t => match t with [] => Err NullDeref | _ => bind (cone_system T n t) (fun S => Ok (zsolve k S)) end).
Proof.
  intros T n V zs HA HZ PT k t homs I0 E. destruct t as [|r t0]; [discriminate E|]. set (t := r :: t0) in *. destruct (cone_system T n t) as [S|] eqn:ES; [|discriminate E]. cbn [bind] in E. injection E as E.
  assert (SO : forall x, solves n S x <-> cone_point n t x) by (intros x; apply (zsolve_gets_the_cone T n t S x); [apply HA; [exact I0|discriminate]|discriminate|exact ES]).
  destruct (HZ k S homs E) as (H1 & H2). split; [intros h Hh; apply SO, H1, Hh|]. intros x Hx. apply H2; [|now apply SO].
  intros z Z1 Z2. apply SO in Z1, Z2. destruct Z1 as (L1 & G1). destruct Z2 as (L2 & G2). apply nth_ext with (d := 0) (d' := 0); [now rewrite repeat_length|]. intros i Hi. rewrite nth_repeat. rewrite L1 in Hi.
  assert (X : (zpoint z i == 0)%Q).
  { apply (PT (zpoint z)); [now apply (gen_incl n t V)| |exact Hi]. apply (gen_incl n t V); [exact I0|]. destruct G2 as (a & A0 & A). exists a. split; [exact A0|]. intros j Hj. rewrite <- (A j Hj). symmetry. apply zpoint_opp. }
  unfold zpoint in X. now apply inject_Z_injective.
Qed.
Print Assumptions zsolve_contract_met.

Ltac units := change (inject_Z 0) with 0%Q in *; change (inject_Z 1) with 1%Q in *; change (inject_Z 2) with 2%Q in *; change (inject_Z (-1)) with (-1)%Q in *; change (inject_Z (-2)) with (-2)%Q in *.
(** With cdd the lines of the polar cone of a lower-dimensional cone are lost: one direction of them becomes a ray, and zsolve gets a larger cone. *)
Definition cdd_half_plane (A : list (list Z)) (n : nat) : list (bool * list Z) := [(false, [-1;0]); (true, [0;1])].
Theorem cdd_lower_dimensional_refuted : exists V, cdd_contract cdd_half_plane (map (map Z.opp) V) 2 /\ let T := mkDT WithCdd cdd_half_plane (fun _ _ _ => ([], [])) in
  (exists c, dualize T 2 (mkD V [] [] [] 0 0) = Ok c /\ ~ polar_of 2 V (d_rays c) (d_subspace c)) /\
  exists S x, cone_system T 2 V = Ok S /\ solves 2 S x /\ ~ cone_point 2 V x.
Proof.
  exists [[1;0]]. split.
  - split.
    + intros y. change (with_lines _ _) with [[-1;0];[0;1];[0;-1]]. split.
      * intros H. specialize (H [-1;0] (or_introl eq_refl)). unfold zpoint in H. cbn [sumq nth] in H. units.
        exists (fun k => match k with O => - y 0%nat | S O => if Qlt_le_dec (y 1%nat) 0 then 0 else y 1%nat | _ => if Qlt_le_dec (y 1%nat) 0 then - y 1%nat else 0 end)%Q. split.
        -- intros [|[|[|k]]] Hk; cbv iota beta; [lra| | |cbn in Hk; lia]; destruct (Qlt_le_dec _ _); lra.
        -- intros [|[|i]] Hi; [| |lia]; unfold vat; cbn [sumq nth length]; units; destruct (Qlt_le_dec _ _); ring.
      * intros (a & A0 & A) w [<-|[]]. pose proof (A 0%nat ltac:(lia)) as E0. pose proof (A0 0%nat ltac:(cbn; lia)) as P0. unfold vat in E0. unfold zpoint. cbn [sumq nth length map Z.opp] in *. units. lra.
    + intros P. exfalso. assert (B : forall q : Q, forall a, In a (map (map Z.opp) [[1;0]]) -> (0 <= sumq 2 (fun k => (if Nat.eqb k 0 then 0 else q) * zpoint a k))%Q) by (intros q a [<-|[]]; unfold zpoint; cbn [sumq nth map Z.opp Nat.eqb]; units; lra).
      specialize (P (fun k => if Nat.eqb k 0 then 0%Q else 1%Q) (B 1%Q)). assert (X : (1 == 0)%Q); [|discriminate X]. apply (P) with (k := 1%nat); [|lia]. intros a Ha. assert (X := B (-1)%Q a Ha). destruct Ha as [<-|[]]. unfold zpoint in *. cbn [sumq nth map Z.opp Nat.eqb] in *. units. lra.
  - cbv zeta. split.
    + exists (mkD [[-1;0];[0;1]] [[1;0]] [] [] 0 0). split; [vm_compute; reflexivity|]. cbn [d_rays d_subspace]. intros P. specialize (P (zpoint [0;-1])). assert (B : below 2 [[1;0]] (zpoint [0;-1])) by (intros r [<-|[]]; vm_compute; discriminate).
      apply P in B as (a & A0 & A). pose proof (A 1%nat ltac:(lia)) as E1. pose proof (A0 1%nat ltac:(cbn; lia)) as P1. unfold vat, zpoint in E1. cbn [sumq nth length with_lines app map] in E1. units. lra.
    + eexists. exists [1;-1]. split; [vm_compute; reflexivity|]. split.
      * split; [reflexivity|]. intros p [<-|[<-|[]]]; vm_compute; discriminate.
      * intros (_ & a & A0 & A). pose proof (A 1%nat ltac:(lia)) as E1. unfold vat, zpoint in E1. cbn [sumq nth length] in E1. units. lra.
Qed.
Print Assumptions cdd_lower_dimensional_refuted.

(** The zero cone cannot be dualized twice with 4ti2: the polar cone is a subspace, and the second call meets an assertion. *)
Definition rays_plane : ray_algorithm := fun _ _ _ => ([], [[1;0];[0;1]]).
Theorem zero_cone_refuted : let T := mkDT With4ti2 (fun _ _ => []) rays_plane in admissible T 2 [] /\ exists c, dualize T 2 (mkD [] [] [] [] 0 0) = Ok c /\ dualize T 2 c = Err AssertFail.
Proof.
  cbv zeta. split.
  - split; [constructor|]. split; [discriminate|]. intros _. cbn [trusted dt_method dt_rays]. unfold generators_contract, rays_plane. intros z. split.
    + intros _. exists (fun k => match k with O => if Qlt_le_dec (z 0%nat) 0 then 0 else z 0%nat | S O => if Qlt_le_dec (z 1%nat) 0 then 0 else z 1%nat | 2%nat => if Qlt_le_dec (z 0%nat) 0 then - z 0%nat else 0 | _ => if Qlt_le_dec (z 1%nat) 0 then - z 1%nat else 0 end)%Q. split.
      * intros [|[|[|[|k]]]] Hk; cbv iota beta; try (cbn in Hk; lia); destruct (Qlt_le_dec _ _); lra.
      * change (with_lines [] [[1;0];[0;1]]) with [[1;0];[0;1];[-1;0];[0;-1]]. intros [|[|i]] Hi; [| |cbn in Hi; lia]; unfold vat; cbn [sumq nth length]; units; destruct (Qlt_le_dec _ _); destruct (Qlt_le_dec _ _); ring.
    + intros _. split; [intros a []|]. intros [|[|k]] Hk H; try discriminate H. cbn in Hk. lia.
  - eexists. split; reflexivity.
Qed.
Print Assumptions zero_cone_refuted.

(** Non-vacuity.  Three rays in the plane: the polar cone, and the system for zsolve. *)
Definition rays_three : ray_algorithm := fun _ _ _ => ([[2;1;0;-2;1];[0;1;2;0;-1]], []).
Definition plane_tools : dtools := mkDT With4ti2 (fun _ _ => []) rays_three.
Example plane_admissible : admissible plane_tools 2 [[1;0];[1;1];[1;2]].
Proof.
  split; [repeat (constructor; [reflexivity|]); constructor|]. split; [discriminate|]. intros _. cbn [trusted plane_tools dt_method dt_rays]. unfold generators_contract, rays_three. intros z.
  change (in_signed_cone _ _ _ z) with (LC 2 [[1;0];[1;1];[1;2]] z). rewrite in_LC. change (with_lines _ []) with [[2;1;0;-2;1];[0;1;2;0;-1]]. split.
  - intros H. assert (H0 := H 0%nat ltac:(cbn; lia)). assert (H1 := H 1%nat ltac:(cbn; lia)). assert (H2 := H 2%nat ltac:(cbn; lia)). clear H. unfold val, last_of, zpoint in *. cbn [length sumq nth Nat.add] in *. units.
    exists (fun k => match k with O => - (1#2) * z 3%nat | _ => - (1#2) * z 3%nat - z 4%nat end)%Q. split; [intros [|k] Hk; lra|].
    intros [|[|[|[|[|i]]]]] Hi; [| | | | |cbn in Hi; lia]; unfold vat; cbn [sumq nth length]; units; try lra.
  - intros (a & A0 & A). assert (P0 := A0 0%nat ltac:(cbn; lia)). assert (P1 := A0 1%nat ltac:(cbn; lia)). assert (E0 := A 0%nat ltac:(cbn; lia)). assert (E1 := A 1%nat ltac:(cbn; lia)). assert (E2 := A 2%nat ltac:(cbn; lia)). assert (E3 := A 3%nat ltac:(cbn; lia)). assert (E4 := A 4%nat ltac:(cbn; lia)).
    unfold vat in *. unfold val, last_of, zpoint. cbn [sumq nth length Nat.add] in *. units. intros [|[|[|i]]] Hi; cbn [sumq nth length Nat.add] in *; units; try lia; split; lra.
Qed.
Example plane_dualized : dualize plane_tools 2 (mkD [[1;0];[1;1];[1;2]] [] [] [] 0 0) = Ok (mkD [[0;-1];[-2;1]] [[1;0];[1;1];[1;2]] [] [] 0 0) /\
  cone_system plane_tools 2 [[1;0];[1;1];[1;2]] = Ok [(false, [0;-1]); (false, [-2;1])] /\
  dualize plane_tools 2 (mkD [[1;0];[1;3]] [] [] [] 0 0) = Ok (mkD [[-3;1];[0;-1]] [[1;0];[1;3]] [] [] 3 3).
Proof. vm_compute. auto. Qed.
(** A half-line given twice in one variable, for the contract about extreme rays. *)
Definition rays_line : ray_algorithm := fun _ _ _ => ([[1;2;-1]], []).
Example line_spans : spans 1 [[1];[2]].
Proof. intros y H k Hk. specialize (H [1] (or_introl eq_refl)). unfold pairing, zpoint in H. cbn [sumq nth] in H. units. replace k with 0%nat by lia. lra. Qed.
Example line_contract : ray_contract rays_line (lifted [[1];[2]]) 3 [true;true;false].
Proof.
  unfold ray_contract, rays_line. assert (CC : forall z, in_signed_cone (lifted [[1];[2]]) 3 [true;true;false] z <-> (z 0%nat == - z 2%nat)%Q /\ (z 1%nat == - 2 * z 2%nat)%Q /\ (z 2%nat <= 0)%Q).
  { intros z. change (in_signed_cone _ _ _ z) with (LC 1 [[1];[2]] z). rewrite in_LC. split.
    - intros H. assert (H0 := H 0%nat ltac:(cbn; lia)). assert (H1 := H 1%nat ltac:(cbn; lia)). unfold val, last_of, zpoint in *. cbn [length sumq nth Nat.add] in *. units. repeat split; lra.
    - intros (A & B & C). intros [|[|i]] Hi; try (cbn in Hi; lia); unfold val, last_of, zpoint in *; cbn [length sumq nth Nat.add] in *; units; split; lra. }
  assert (C1 : in_signed_cone (lifted [[1];[2]]) 3 [true;true;false] (zpoint [1;2;-1])) by (apply CC; vm_compute; repeat split; discriminate).
  split; [split; [intros _|reflexivity]; exact (spans_pointed 1 [[1];[2]] line_spans)|]. intros _.
  assert (MU : forall z, in_signed_cone (lifted [[1];[2]]) 3 [true;true;false] z -> forall k, (k < 3)%nat -> (z k == (- z 2%nat) * zpoint [1;2;-1]%Z k)%Q).
  { intros z Hz. apply CC in Hz as (A & B & D). intros [|[|[|k]]] Hk; try lia; unfold zpoint; cbn [nth]; units; lra. }
  split; [|split; [|split]].
  - intros r [<-|[]]. split; [reflexivity|]. split; [exact C1|]. split; [intros Z0; specialize (Z0 0%nat ltac:(lia)); discriminate Z0|]. intros x y Hx _ _. exists (- x 2%nat)%Q. now apply MU.
  - intros z (Hz & N & _). exists [1;2;-1], (- z 2%nat)%Q. split; [now left|]. split; [|now apply MU]. destruct (Qlt_le_dec 0 (- z 2%nat)) as [L|L]; [exact L|]. exfalso. apply N. intros k Hk. rewrite (MU z Hz k Hk). apply CC in Hz as (_ & _ & D). assert (E : (z 2%nat == 0)%Q) by lra. rewrite E. ring.
  - intros z Hz. exists (fun _ => - z 2%nat)%Q. split; [intros i _; apply CC in Hz as (_ & _ & D); lra|]. intros k Hk. cbn [length sumq nth]. rewrite (MU z Hz k Hk). ring.
  - intros i j q Hij Hj. cbn in Hj. lia.
Qed.
Example line_dualized : dualize (mkDT With4ti2 (fun _ _ => []) rays_line) 1 (mkD [[1];[2]] [] [] [] 5 7) = Ok (mkD [[-1]] [[1];[2]] [] [] 7 5).
Proof. reflexivity. Qed.
(** cdd, for a full-dimensional cone. *)
Example cdd_admissible : admissible (mkDT WithCdd (fun _ _ => [(false, [-1])]) rays_line) 1 [[1];[2]].
Proof.
  split; [repeat (constructor; [reflexivity|]); constructor|]. split; [discriminate|]. intros _. cbn [trusted dt_method dt_cdd]. split; [|exact line_spans]. split; [|reflexivity]. intros y. change (with_lines _ _) with [[-1]]. split.
  - intros H. specialize (H [-1] (or_introl eq_refl)). unfold zpoint in H. cbn [sumq nth] in H. units. exists (fun _ => - y 0%nat)%Q. split; [intros k _; lra|]. intros [|i] Hi; [|lia]. unfold vat. cbn [length sumq nth]. units. ring.
  - intros (a & A0 & A) w Hw. assert (P0 := A0 0%nat ltac:(cbn; lia)). assert (E0 := A 0%nat ltac:(lia)). unfold vat in E0. cbn [length sumq nth] in E0. units. destruct Hw as [<-|[<-|[]]]; unfold zpoint; cbn [sumq nth map Z.opp]; units; lra.
Qed.
