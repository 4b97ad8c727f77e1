(** C77: the cone method computes volumes and integrals of rational polytopes. *)
From Coq Require Import QArith Qabs Qfield Lqa Qpower Permutation.
From Verif Require Import Common Integ Rational RationalSpec RatVec RatVecSpec Trie TrieSpec TrieProofs2 IntegSpec Det DetProofs Piped PipedSpec PipedProofs PipedProofs3 ConeSpec CountSpec IntegralSpec IntegMath IntegProofs5 DecompProofs IntegralProofs6 P_Count Valuation ValuationSpec ValuationSpec2 ValuationProofs2 ValuationProofs5 ValuationProofs6 ValuationProofs8 P_Valuation ConeMethodSpec ConeMethodProofs ConeMethodProofs2 ConeMethodProofs3 ConeMethodProofs4.
Open Scope Z_scope.

(** The polytope is { x : b + <a,x> >= 0 for the rows (b,a) }; its vertices may be rational.
    The object was made from its tangent cones; triangulateCone cuts any of these cones,
    wherever its apex, into simplicial cones.  findVolume by the cone method returns the
    volume, in lowest terms, or is still drawing: every vector drawn so far was orthogonal
    to a ray. *)
Theorem cone_volume : forall n rows cones T fuel rs, n <> O -> (forall c, In c rows -> length c = S n) -> bounded n rows ->
  tangent_cones n rows cones -> triangulates_cones n T cones ->
  (exists v st', find_volume T fuel rs Cones (from_cones n cones) = Ok (v, st') /\ lowest_terms v /\ integral_over n rows (fun _ => 1%Q) (value v)) \/
  (find_volume T fuel rs Cones (from_cones n cones) = Err OutOfFuel /\
   forall j, (j < fuel)%nat -> exists r, In r (flat_map vc_rays (flat_map (T n) cones)) /\ dot (map (fun i => Z.of_nat (rs (j * n + i)%nat) mod 10000) (seq 0 n)) r = 0).
Proof.
  intros n rows cones T fuel rs Hn LR BD TC TR. unfold find_volume, from_cones. rewrite triangulate_from. cbn [pv_vars pv_tri]. pose proof (tri_perm n T cones) as P.
  destruct (volume_run n rows cones T Hn LR BD TC TR (tri_of n T cones) fuel rs P) as [(v & V1 & V2 & V3)|(V1 & V2)]; rewrite V1; cbn [bind]; [left|right].
  - eexists _, _. split; [reflexivity|]. split; [exact V2|]. apply (over_ext n rows (fun x => qdot (repeat 0%Z n) x ^ Z.of_nat 0)%Q); [intros; reflexivity|].
    apply (form_over n rows Hn BD). intros D CL. rewrite Nat.add_0_r. now apply V3.
  - split; [reflexivity|]. intros j Hj. destruct (V2 j Hj) as (k & r & A & B & C). exists r. split; [apply in_flat_map; exists k; split; [apply (Permutation_in _ P A)|exact B]|exact C].
Qed.
Print Assumptions cone_volume.
(** findIntegral of a sum of powers of linear forms by the cone method: the integral over
    the polytope of the sum of coef * <l,x>^deg / deg!, or it is still drawing. *)
Theorem cone_forms : forall n rows cones T l fuel rs rs', n <> O -> (forall c, In c rows -> length c = S n) -> bounded n rows -> cones <> [] ->
  tangent_cones n rows cones -> triangulates_cones n T cones -> Forall (form_input n) l -> (exists p, In p l /\ ~ (value (fst (fst p)) == 0)%Q) ->
  exists p, insert_all rat_add rat_zero l (new_sum n) = Ok p /\
    ((exists v st', find_integral_forms T fuel rs rs' Cones p (from_cones n cones) = Ok (v, st') /\ lowest_terms v /\
        integral_over n rows (fun x => sum_over (fun t => value (fst (fst t)) * (qdot (snd t) x ^ snd (fst t) / inject_Z (zfact (Z.to_nat (snd (fst t))))))%Q l) (value v)) \/
     find_integral_forms T fuel rs rs' Cones p (from_cones n cones) = Err OutOfFuel).
Proof.
  intros n rows cones T l fuel rs rs' Hn LR BD NE TC TR FI NZ. destruct (dilate_ok n rows cones T Hn NE TC TR) as (k & cs & D1 & D2 & D3 & D4 & D5 & D6).
  destruct (dilate_forms_ok n k l Hn (proj1 D2) FI NZ) as (p & m & co & out & F1 & F2 & F3 & F4). exists p. split; [exact F1|]. pose proof F3 as (MV & _).
  destruct (forms_exist n rows cones T Hn LR BD TC TR) as (H & H0 & HF). unfold find_integral_forms. rewrite D1. cbn [bind]. rewrite F2. cbn [bind]. rewrite MV.
  destruct (integrate_cones_ok n rows T Hn LR BD H HF k cs m co out fuel rs rs' D2 D3 D4 D5 D6 F3) as [(v & st' & V1 & V2 & V3)|V1]; [left|now right]. exists v, st'. split; [exact V1|]. split; [exact V2|].
  apply (over_eq n rows _ (qsum (fun t => value (fst (fst t)) / inject_Z (zfact (Z.to_nat (snd (fst t)))) * H (Z.to_nat (snd (fst t))) (snd t))%Q l)).
  - rewrite V3. unfold split_value. rewrite (F4 (fun d e => H (Z.to_nat d) e / inject_Z (zfact (Z.to_nat d)))%Q (H 0%nat (repeat 0%Z n))).
    + apply qsum_ext. intros t _. unfold Qdiv. ring.
    + intros e. change (Z.to_nat 0) with 0%nat. change (inject_Z (zfact 0)) with 1%Q. rewrite (H0 e), (H0 (repeat 0%Z n)). field.
  - apply (over_ext n rows (fun x => qsum (fun t => value (fst (fst t)) / inject_Z (zfact (Z.to_nat (snd (fst t)))) * (qdot (snd t) x ^ Z.of_nat (Z.to_nat (snd (fst t)))))%Q l)).
    + intros x _. rewrite sum_over_qsum. apply qsum_ext. intros t Ht. rewrite Forall_forall in FI. destruct (FI t Ht) as (_ & _ & Hd & _). rewrite Z2Nat.id by exact Hd. unfold Qdiv. ring.
    + apply (over_sum n rows Hn BD (fun t => value (fst (fst t)) / inject_Z (zfact (Z.to_nat (snd (fst t)))))%Q (fun t x => qdot (snd t) x ^ Z.of_nat (Z.to_nat (snd (fst t))))%Q (fun t => H (Z.to_nat (snd (fst t))) (snd t)) l).
      intros t Ht. rewrite Forall_forall in FI. destruct (FI t Ht) as (_ & Ll & _). apply (form_over n rows Hn BD). intros D CL. now apply HF.
Qed.
Print Assumptions cone_forms.
(** findIntegral of a polynomial whose monomials are different. *)
Theorem cone_polynomial : forall n D rows cones T l fuel rs rs', n <> O -> (forall c, In c rows -> length c = S n) -> bounded n rows -> cones <> [] ->
  tangent_cones n rows cones -> triangulates_cones n T cones -> polynomial_input n D l -> NoDup (map snd (nonzero_monomials l)) ->
  exists p, insert_all rat_add rat_zero (as_input l) (new_sum n) = Ok p /\
    ((exists v st', find_integral_polynomial T fuel rs rs' Cones p (from_cones n cones) = Ok (v, st') /\ lowest_terms v /\ integral_over n rows (poly_at (input_poly l)) (value v)) \/
     find_integral_polynomial T fuel rs rs' Cones p (from_cones n cones) = Err OutOfFuel).
Proof.
  intros n D rows cones T l fuel rs rs' Hn LR BD NE TC TR PI ND. destruct (dilate_ok n rows cones T Hn NE TC TR) as (k & cs & D1 & D2 & D3 & D4 & D5 & D6). pose proof PI as (_ & _ & _ & NM).
  destruct (dilate_polynomial_ok n k l Hn (proj1 D2) (input_monomials n D l PI) NM) as (p & P1 & P2 & _ & P4). exists p. split; [exact P1|]. destruct (P4 ND) as (m & co & out & F2 & F3 & _ & F5).
  destruct (forms_exist n rows cones T Hn LR BD TC TR) as (H & H0 & HF). unfold find_integral_polynomial. rewrite D1. cbn [bind]. rewrite F2. cbn [bind]. rewrite P2.
  destruct (integrate_cones_ok n rows T Hn LR BD H HF k cs m co out fuel rs rs' D2 D3 D4 D5 D6 F3) as [(v & st' & V1 & V2 & V3)|V1]; [left|now right]. exists v, st'. split; [exact V1|]. split; [exact V2|].
  destruct F3 as (_ & _ & _ & FO). rewrite Forall_forall in FO.
  set (c0 := mkTerm co (repeat 0%Z n) 0). set (wt := fun t : bterm rat => (value (t_coef t) * inject_Z k ^ t_deg t / inject_Z (zfact (Z.to_nat (t_deg t))))%Q).
  assert (IO : forall t, In t (c0 :: out) -> integral_over n rows (fun x => qdot (t_exps t) x ^ Z.of_nat (Z.to_nat (t_deg t)))%Q (H (Z.to_nat (t_deg t)) (t_exps t))).
  { intros t Ht. apply (form_over n rows Hn BD). intros E CL. apply HF; [|exact CL]. destruct Ht as [<-|Ht]; [apply repeat_length|now apply FO]. }
  apply (over_eq n rows _ (qsum (fun t => wt t * H (Z.to_nat (t_deg t)) (t_exps t))%Q (c0 :: out))).
  - rewrite V3. unfold split_value. cbn [qsum]. apply Qplus_comp; [unfold wt, c0; cbn [t_coef t_deg t_exps]; change (Z.to_nat 0) with 0%nat; change (inject_Z (zfact 0)) with 1%Q; change (inject_Z k ^ 0)%Q with 1%Q; field|]. apply qsum_ext. intros t _. unfold wt, Qdiv. ring.
  - apply (over_ext n rows (fun x => qsum (fun t => wt t * qdot (t_exps t) x ^ Z.of_nat (Z.to_nat (t_deg t)))%Q (c0 :: out))); [|exact (over_sum n rows Hn BD wt (fun t x => qdot (t_exps t) x ^ Z.of_nat (Z.to_nat (t_deg t)))%Q (fun t => H (Z.to_nat (t_deg t)) (t_exps t)) (c0 :: out) IO)].
    intros x Lx. rewrite <- (F5 x Lx). cbn [qsum]. apply Qplus_comp; [unfold wt, c0; cbn [t_coef t_deg t_exps]; change (Z.to_nat 0) with 0%nat; change (inject_Z (zfact 0)) with 1%Q; change (inject_Z k ^ 0)%Q with 1%Q; change (qdot (repeat 0%Z n) x ^ Z.of_nat 0)%Q with 1%Q; field|].
    apply qsum_ext. intros t Ht. destruct (FO t Ht) as (((A & _) & _) & _). rewrite Z2Nat.id by lia. unfold wt, Qdiv. ring.
Qed.
Print Assumptions cone_polynomial.
(** The integral is determined by the polytope and the function. *)
Theorem integral_over_unique : forall n rows cones f I J, n <> O -> bounded n rows -> tangent_cones n rows cones -> integral_over n rows f I -> integral_over n rows f J -> (I == J)%Q.
Proof. intros n rows cones f I J Hn BD TC HI HJ. destruct (clears_exists n rows cones TC) as (D & CL). exact (over_unique n rows Hn BD D f I J CL HI HJ). Qed.
Print Assumptions integral_over_unique.
(** The triangle x, y >= 0, 2x + 3y <= 7 with the vertices (0,0), (7/2,0), (0,7/3). *)
Definition triangle_tangents : list vcone :=
  [mkVC (vtx 0 1 0 1) [[1;0];[0;1]] 1; mkVC (vtx 7 2 0 1) [[-1;0];[-3;2]] 1; mkVC (vtx 0 1 7 3) [[0;-1];[3;-2]] 1].
Definition keep (m : nat) (c : vcone) : list vcone := [c].
Example triangle_tangents_ok : bounded 2 (triangle_rows 7) /\ tangent_cones 2 (triangle_rows 7) triangle_tangents /\ triangulates_cones 2 keep triangle_tangents.
Proof.
  split; [|split; [split|]].
  - exists 7. intros x H. pose proof (H [0;1;0] ltac:(now left)) as H1. pose proof (H [0;0;1] ltac:(right; now left)) as H2. pose proof (H [7;-2;-3] ltac:(right; right; now left)) as H3. rewrite slack2 in *. unfold inject_Z in *. intros [|[|k]] Hk; [| |lia]; lra.
  - apply triangle_all_vertices; [lia| | |]; split; vm_compute; reflexivity.
  - assert (TG : forall v R (y : nat -> Q), (forall i, (i < 2)%nat -> (coord v i == y i)%Q) -> length R = 2%nat -> (forall x, in_tangent_cone 2 (triangle_rows 7) y x <-> exists a b : Q, (0 <= a /\ 0 <= b /\ x 0%nat == y 0%nat + a * inject_Z (vat R 0 0) + b * inject_Z (vat R 1 0) /\ x 1%nat == y 1%nat + a * inject_Z (vat R 0 1) + b * inject_Z (vat R 1 1))%Q) ->
      forall x, in_tangent_cone 2 (triangle_rows 7) (coord v) x <-> in_gen 2 R (fun i => x i - coord v i)%Q).
    { intros v R y Hy LR HR x. transitivity (in_tangent_cone 2 (triangle_rows 7) y x); [split; apply tangent_ext; try (intros k _; reflexivity); intros k Hk; [|symmetry]; apply Hy, Hk|]. rewrite HR. unfold in_gen. rewrite LR. split.
      - intros (a & b & A & B & E0 & E1). exists (fun k => if (k =? 0)%nat then a else b). split; [intros [|k] _; assumption|]. intros [|[|k]] Hk; [| |lia]; rewrite Hy by lia; cbn [sumq Nat.eqb]; [rewrite E0|rewrite E1]; ring.
      - intros (a & A & E). exists (a 0%nat), (a 1%nat). split; [apply A; lia|]. split; [apply A; lia|]. pose proof (E 0%nat ltac:(lia)) as E0. pose proof (E 1%nat ltac:(lia)) as E1. rewrite Hy in E0, E1 by lia. cbn [sumq] in E0, E1. split; lra. }
    assert (S0 : forall y x, in_tangent_cone 2 (triangle_rows 7) y x <-> ((y 0%nat == 0 -> 0 <= x 0%nat) /\ (y 1%nat == 0 -> 0 <= x 1%nat) /\ (7 - 2 * y 0%nat - 3 * y 1%nat == 0 -> 0 <= 7 - 2 * x 0%nat - 3 * x 1%nat))%Q).
    { intros y x. split.
      - intros H. pose proof (H [0;1;0] ltac:(now left)) as H1. pose proof (H [0;0;1] ltac:(right; now left)) as H2. pose proof (H [7;-2;-3] ltac:(right; right; now left)) as H3. rewrite !slack2 in *. unfold inject_Z in *. split; [intros E; assert (X : (0 <= 0 + x 0%nat * 1 + x 1%nat * 0)%Q) by (apply H1; lra); lra|]. split; [intros E; assert (X : (0 <= 0 + x 0%nat * 0 + x 1%nat * 1)%Q) by (apply H2; lra); lra|]. intros E. assert (X : (0 <= 7 + x 0%nat * (-2) + x 1%nat * (-3))%Q) by (apply H3; lra). lra.
      - intros (H1 & H2 & H3) c [<-|[<-|[<-|[]]]]; rewrite !slack2; unfold inject_Z; intros E; [specialize (H1 ltac:(lra))|specialize (H2 ltac:(lra))|specialize (H3 ltac:(lra))]; lra. }
    intros c [<-|[<-|[<-|[]]]]; cbn [vc_vertex vc_rays vc_coef]; (split; [unfold rational_point; cbn [vtx enumerator denominator computed length]; split; [reflexivity|]; split; [reflexivity|]; split; [constructor; [lia|constructor; [lia|constructor]]|discriminate]|]); (split; [reflexivity|]).
    + apply (TG _ _ (fun _ => 0%Q)); [intros [|[|i]] Hi; try lia; vm_compute; reflexivity|reflexivity|]. intros x. rewrite S0. unfold vat. cbn [nth]. unfold inject_Z. split.
      * intros (H1 & H2 & _). specialize (H1 ltac:(lra)). specialize (H2 ltac:(lra)). exists (x 0%nat), (x 1%nat). split; [exact H1|]. split; [exact H2|]. split; lra.
      * intros (a & b & A & B & E0 & E1). split; [intros _; lra|]. split; [intros _; lra|]. intros E. lra.
    + apply (TG _ _ (fun i => if (i =? 0)%nat then (7#2) else 0)%Q); [intros [|[|i]] Hi; try lia; vm_compute; reflexivity|reflexivity|]. intros x. rewrite S0. unfold vat. cbn [nth Nat.eqb]. unfold inject_Z. split.
      * intros (_ & H2 & H3). specialize (H2 ltac:(lra)). specialize (H3 ltac:(lra)). exists ((7 - 2 * x 0%nat - 3 * x 1%nat) * (1#2))%Q, (x 1%nat * (1#2))%Q. split; [lra|]. split; [lra|]. split; lra.
      * intros (a & b & A & B & E0 & E1). split; [intros E; lra|]. split; [intros _; lra|]. intros _. lra.
    + apply (TG _ _ (fun i => if (i =? 0)%nat then 0 else (7#3))%Q); [intros [|[|i]] Hi; try lia; vm_compute; reflexivity|reflexivity|]. intros x. rewrite S0. unfold vat. cbn [nth Nat.eqb]. unfold inject_Z. split.
      * intros (H1 & _ & H3). specialize (H1 ltac:(lra)). specialize (H3 ltac:(lra)). exists ((7 - 2 * x 0%nat - 3 * x 1%nat) * (1#3))%Q, (x 0%nat * (1#3))%Q. split; [lra|]. split; [lra|]. split; lra.
      * intros (a & b & A & B & E0 & E1). split; [intros _; lra|]. split; [intros E; lra|]. intros _. lra.
  - intros c v Hc. cbn [keep]. split; [constructor; [split; reflexivity|constructor]|]. cbn [map vc_rays]. apply simplicial_triangulates; destruct Hc as [<-|[<-|[<-|[]]]]; cbn [vc_rays]; try (split; [reflexivity|repeat constructor]); apply det_indep; vm_compute; discriminate.
Qed.
(** Its area 49/12; the integral of 3 + (x+2y)^2/2 and that of 1 + 2xy^2.  The first vector
    drawn for the area is orthogonal to a ray. *)
Definition rand_of (i : nat) : nat := match i with O => 2 | 1%nat => 3 | _ => (i + 1)%nat end.
Definition poly_run l := bind (insert_all rat_add rat_zero (as_input l) (new_sum 2)) (fun p => bind (find_integral_polynomial keep 5 rand_of rand_of Cones p (from_cones 2 triangle_tangents)) (fun r => Ok (fst r))).
Definition forms_run l := bind (insert_all rat_add rat_zero l (new_sum 2)) (fun p => bind (find_integral_forms keep 5 rand_of rand_of Cones p (from_cones 2 triangle_tangents)) (fun r => Ok (fst r))).
Example triangle_area : find_volume keep 1 rand_of Cones (from_cones 2 triangle_tangents) = Err OutOfFuel /\
  bind (find_volume keep 2 rand_of Cones (from_cones 2 triangle_tangents)) (fun r => Ok (fst r)) = Ok (mkRat 49 12).
Proof. vm_compute. split; reflexivity. Qed.
Example triangle_integrals : forms_run forms2 = Ok (mkRat 152341 5184) /\ poly_run poly2 = Ok (mkRat 30037 3240).
Proof. vm_compute. split; reflexivity. Qed.
