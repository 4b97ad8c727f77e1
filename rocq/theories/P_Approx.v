(** C88: bounds of the number of integer points (count --approximate).  Specification:
    CountSpec.v (polyhedra, vertices, integer points), ExpSpec.v (constant terms of sums of
    exponentials), ConeSpec.v (walls of a cone), PipedSpec.v. *)
From Coq Require Import QArith Qfield Lqa.
From Verif Require Import Common SmithSpec SmithProofs2 ZMat Hermite HermiteProofs Det DetProofs RatVec RatVecSpec RatVecProofs Piped PipedSpec PipedProofs PipedProofs3 PipedProofs4 ConeSpec ConeProofs Irrational IrrationalProofs IrrationalProofs3 IntegMath Series DecompProofs Exponential ExpSpec ExpProofs ExpProofs2 ExpProofs3 ExpProofs4 CountSpec Barvinok BarvinokSpec BarvinokProofs BarvinokProofs2 BarvinokProofs3 BarvinokProofs4 P_Barvinok BrionLinear BrionProofs BrionProofs2 BrionProofs3 EulerProofs BrionProofs4 BrionProofs5 Count CountProofs CountProofs2 CountProofs3 CountProofs4 CountProofs5 CountProofs6 CountProofs7 P_Count Approx ApproxPoints ApproxProofs ApproxProofs2 ApproxProofs3 ApproxProofs4 ApproxProofs5.
Open Scope Z_scope.

(** What is shown: pairs of bounds that all enclose the number of points, and the last pair is
    that number twice. *)
Definition brackets (shown : list (Q * Q)) (N : Z) : Prop :=
  (forall l u, In (l, u) shown -> (l <= inject_Z N <= u)%Q) /\ exists before l u, shown = before ++ [(l, u)] /\ (l == inject_Z N)%Q /\ (u == inject_Z N)%Q.
(** No cone evaluated has an integer point on one of its walls. *)
Definition irrational_run (n : nat) (met : list (rvec * bcone)) : Prop :=
  forall v d x, In (v, d) met -> ~ on_wall n (coord v) (s_rays (b_cone d)) (zpoint x).
(** The element on top of the heap is one of the heap. *)
Definition takes_from_heap (pick : astate -> nat) : Prop := forall st, a_heap st <> [] -> (pick st < length (a_heap st))%nat.
(** No prime divides all entries of a normal of the triangulation. *)
Definition primitive_normals (P : params) (n : nat) (rows : list (list Z)) (vs : list rvec) : Prop :=
  forall v t, In v vs -> In t (q_tri P (outer_normals n rows (coord v))) -> rays_primitive n t.

(** The bounds of one cone enclose the contribution of the cone, without enumerating its
    parallelepiped: for the vector g, the constant term of
    coef * sum exp(<g,p>t) / prod (1 - exp(<g,r>t)).  The only failure is a g that is
    orthogonal to a ray. *)
Theorem cone_bounds_enclose : forall n g v d, (0 < n)%nat -> (exists Pr k, (Pr = nonzero \/ Pr = positive) /\ reachable Pr k v) -> dim v = n -> length g = n -> cone_ok n (b_cone d) ->
  match cone_bounds n g v d with
  | Ok (l, u) => exists pts q, NoDup pts /\ (forall x, In x pts <-> in_parallelepiped n v (s_rays (b_cone d)) x) /\
      exponential_residue (map (zdot g) (s_rays (b_cone d))) (map (zdot g) pts) q /\ (l <= inject_Z (b_coef d) * q <= u)%Q
  | Err e => e = Thrown /\ exists r, In r (s_rays (b_cone d)) /\ zdot g r = 0
  end.
Proof.
  intros n g v d Hn UV Dv Lg OK. destruct (piped_points xgcd_euclid n (b_cone d) v xgcd_euclid_contract Hn OK UV Dv) as (pts & ND & IN & LP).
  pose proof (bounds_enclose n g v d pts (conj UV Dv) Lg (proj1 (proj1 OK)) (fun p Hp => proj1 (IN p) Hp) LP) as B.
  destruct (cone_bounds n g v d) as [[l u]|e].
  - destruct B as [NZ B]. exists pts, (resF (map (zdot g) (s_rays (b_cone d))) (map (zdot g) pts) (length (map (zdot g) (s_rays (b_cone d))))). split; [exact ND|]. split; [exact IN|]. split; [apply residue_exists, NZ|]. rewrite map_length. exact B.
  - destruct B as [-> Z0]. split; [reflexivity|]. clear -Z0. induction (s_rays (b_cone d)) as [|r l IH]; [cbn in Z0; lia|]. cbn [map zprodl fold_right] in Z0. apply Z.mul_eq_0 in Z0 as [Z0|Z0]; [exists r; split; [now left|exact Z0]|]. destruct (IH Z0) as (r' & H1 & H2). exists r'. split; [now right|exact H2].
Qed.
Print Assumptions cone_bounds_enclose.

Lemma dual_cones_ok n rows vs : (forall c, In c rows -> length c = S n) -> (forall v, In v vs -> usable n v) -> dual_cones n rows vs = Ok (map (fun v => (v, outer_normals n rows (coord v), [])) vs).
Proof. intros LR UV. apply mapM_all. intros v Hv. rewrite (proj1 (tight_ok n rows v (UV v Hv) LR)). reflexivity. Qed.
Lemma brackets_of n points r : right_answer n points r -> irrational_run n (snd r) -> brackets (fst r) (Z.of_nat (length points)).
Proof.
  intros R OW. destruct (R OW) as [FA (pre & l & u & E & EL & EU)]. split.
  - intros l' u' H. rewrite Forall_forall in FA. exact (FA _ H).
  - exists pre, l, u. auto.
Qed.
Section Primal.
Context (P : params) (n : nat) (rows : list (list Z)) (vs : list rvec) (points : list (list Z)).
Context (LC : library_contracts P) (PI : polytope_input P n rows vs) (SV : q_sv P = LatteLLL) (MP : q_mode P <> IrrationalAllPrimalDecomposition) (PN : primitive_normals P n rows vs) (IP : integer_points n rows points).
Let cones : list vcone := map (fun v => (v, outer_normals n rows (coord v), [])) vs.
Lemma primal_sides : (0 < n)%nat /\ approx_mode (q_mode P) = IrrationalPrimalDecomposition /\ (forall c : vcone, In c cones -> usable n (fst (fst c)) /\ triangulates n (snd (fst c)) (q_tri (approx_params P) (snd (fst c))) /\ (q_mode (approx_params P) = IrrationalPrimalDecomposition -> forall t, In t (q_tri (approx_params P) (snd (fst c))) -> rays_primitive n t)) /\
  all_vertices n rows (map coord vs) /\ (forall x, length x = n -> lsum (map (fun c : vcone => hfun n (q_mode (approx_params P)) (fst (fst c)) (snd (fst c)) x) cones) = lsum (map (fun v => Tind n rows v x) (map coord vs))).
Proof.
  destruct PI as (Hn & LR & UV & AV & TR). split; [exact Hn|]. assert (EM : approx_mode (q_mode P) = IrrationalPrimalDecomposition) by (destruct (q_mode P); [reflexivity|reflexivity|congruence]). split; [exact EM|]. split; [|split; [exact AV|]].
  - intros c Hc. apply in_map_iff in Hc as (v & <- & Hv). cbn [fst snd approx_params q_tri]. split; [exact (UV v Hv)|]. split; [exact (TR v Hv)|]. intros _ t Ht. exact (PN v t Hv Ht).
  - intros x Hx. unfold cones. rewrite !map_map. apply lsum_ext. intros v Hv. cbn [fst snd approx_params q_mode]. rewrite <- fpol_tind; [|apply AV; now apply in_map|exact LR]. unfold hfun. now rewrite EM.
Qed.
Lemma primal_run f1 f2 size g pick : approximate (with_fuel P f1 f2) n size g pick rows vs = approximate_cones (fueled (approx_params P) f1 f2) n size g pick cones.
Proof. unfold approximate. destruct PI as (_ & LR & UV & _). rewrite (dual_cones_ok n rows vs LR UV). reflexivity. Qed.
End Primal.

(** C88, dual and irrational primal decomposition (the dual one is replaced by the irrational
    one).  For every vector, every bound on the numbers of recursive calls large enough, every
    size of the heap and every order in which the cones are refined: if the run ends, and no
    cone met has an integer point on a wall, every pair shown encloses the number of integer points and the last one
    is exact. *)
Theorem approximation_encloses : forall P n rows vs points, library_contracts P -> polytope_input P n rows vs -> q_sv P = LatteLLL -> q_mode P <> IrrationalAllPrimalDecomposition -> primitive_normals P n rows vs -> integer_points n rows points ->
  forall g, length g = n -> exists F2, forall f1 f2 size pick shown met, (F2 <= f2)%nat ->
  approximate (with_fuel P f1 f2) n size g pick rows vs = Ok (shown, met) -> irrational_run n met -> brackets shown (Z.of_nat (length points)).
Proof.
  intros P n rows vs points LC PI SV MP PN IP g Lg. destruct (primal_sides P n rows vs PI MP PN) as (Hn & EM & HC & AV & HT). destruct LC as (KC & OC & XG & _).
  assert (MD : q_mode (approx_params P) <> DualDecomposition) by (cbn [approx_params q_mode]; rewrite EM; discriminate).
  destruct (approx_sound (approx_params P) n rows points (map coord vs) _ Hn KC OC XG SV MD HC AV IP HT g Lg) as (F2 & H). exists F2. intros f1 f2 size pick shown met Hf E OW. rewrite (primal_run P n rows vs PI f1 f2 size g pick) in E. exact (brackets_of n points (shown, met) (H f1 f2 size pick _ Hf E) OW).
Qed.
Print Assumptions approximation_encloses.
(** When no integer point lies on a wall: always for the cones evaluated before the first
    refinement, and for all cones met whose facets have small entries, with the bound for which
    the vertices were moved (n^depth, depth the estimated depth of the decomposition). *)
Definition small_facets (P : params) (n : nat) (met : list (rvec * bcone)) : Prop :=
  forall v d i k, In (v, d) met -> Z.abs (vat (s_facets (b_cone d)) i k) <= 8 * (Z.of_nat n ^ Z.of_nat (q_depth P)) ^ Z.of_nat (n - 1).
Theorem first_cones_irrational : forall P n rows vs cones size g st, library_contracts P -> polytope_input P n rows vs -> q_mode P <> IrrationalAllPrimalDecomposition -> primitive_normals P n rows vs ->
  dual_cones n rows vs = Ok cones -> consume_cones (approx_params P) n size g cones initial = Ok st -> irrational_run n (a_met st).
Proof.
  intros P n rows vs cones size g st LC PI MP PN DC E. destruct (primal_sides P n rows vs PI MP PN) as (Hn & EM & HC & AV & HT). destruct PI as (_ & LR & UV & _). rewrite (dual_cones_ok n rows vs LR UV) in DC. injection DC as <-.
  refine (first_irrational (approx_params P) n size g _ st Hn EM _ E). intros c Hc. destruct (HC c Hc) as (H1 & H2 & H3). split; [exact H1|]. split; [exact H2|]. exact (H3 EM).
Qed.
Print Assumptions first_cones_irrational.
Theorem approximation_encloses_small : forall P n rows vs points, library_contracts P -> polytope_input P n rows vs -> q_sv P = LatteLLL -> q_mode P <> IrrationalAllPrimalDecomposition -> primitive_normals P n rows vs -> integer_points n rows points ->
  forall g, length g = n -> exists F2, forall f1 f2 size pick shown met, (F2 <= f2)%nat ->
  approximate (with_fuel P f1 f2) n size g pick rows vs = Ok (shown, met) -> small_facets P n met -> brackets shown (Z.of_nat (length points)).
Proof.
  intros P n rows vs points LC PI SV MP PN IP g Lg. destruct (approximation_encloses P n rows vs points LC PI SV MP PN IP g Lg) as (F2 & H). exists F2. intros f1 f2 size pick shown met Hf E SM. refine (H f1 f2 size pick shown met Hf E _).
  destruct (primal_sides P n rows vs PI MP PN) as (Hn & EM & HC & AV & HT). destruct LC as (KC & OC & _). rewrite (primal_run P n rows vs PI f1 f2 size g pick) in E. refine (small_run_irrational (fueled (approx_params P) f1 f2) n size g pick _ (shown, met) Hn KC OC EM _ E SM).
  intros c Hc. destruct (HC c Hc) as (H1 & H2 & H3). split; [exact H1|]. split; [exact H2|]. exact (H3 EM).
Qed.
Print Assumptions approximation_encloses_small.
(** The run ends, whatever the order, when the heap is large enough, the maximal index is a
    positive int, short vectors lower the index and g is not orthogonal to one of finitely many
    non-zero vectors. *)
Theorem approximation_ends : forall P n rows vs points, library_contracts P -> polytope_input P n rows vs -> q_sv P = LatteLLL -> q_mode P <> IrrationalAllPrimalDecomposition -> primitive_normals P n rows vs -> integer_points n rows points ->
  decreasing n (q_omega P) -> 1 <= q_max_det P <= int_max ->
  exists N size0 F1, (forall r, In r N -> length r = n /\ exists k, (k < n)%nat /\ nth k r 0 <> 0) /\ (exists g, length g = n /\ forall r, In r N -> zdot g r <> 0) /\
  forall g, length g = n -> (forall r, In r N -> zdot g r <> 0) -> exists F2, forall f1 f2 size pick, (F1 <= f1)%nat -> (F2 <= f2)%nat -> size0 <= size -> takes_from_heap pick ->
  exists shown met, approximate (with_fuel P f1 f2) n size g pick rows vs = Ok (shown, met) /\ (irrational_run n met -> brackets shown (Z.of_nat (length points))).
Proof.
  intros P n rows vs points LC PI SV MP PN IP DE MDT. destruct (primal_sides P n rows vs PI MP PN) as (Hn & EM & HC & AV & HT). destruct LC as (KC & OC & XG & _).
  assert (MD : q_mode (approx_params P) <> DualDecomposition) by (cbn [approx_params q_mode]; rewrite EM; discriminate).
  destruct (approx_main (approx_params P) n rows points (map coord vs) _ Hn KC OC XG SV MD HC AV IP HT) as (N & H0 & F1 & NN & H). exists N, H0, F1. split; [exact NN|]. split; [exact (generic_exists n N NN)|].
  intros g Lg G. destruct (H g Lg) as (F2 & HF). exists F2. intros f1 f2 size pick Hf1 Hf2 Hs TK. rewrite (primal_run P n rows vs PI f1 f2 size g pick). specialize (HF f1 f2 size pick Hf1 Hf2 Hs).
  destruct (approximate_cones (fueled (approx_params P) f1 f2) n size g pick _) as [[shown met]|e]; [exists shown, met; split; [reflexivity|]; exact (brackets_of n points (shown, met) HF)|exfalso].
  cbn [approx_params q_max_det q_omega] in HF. destruct HF as [[_ (r & Hr & E)]|[[_ X]|[[_ [X|X]]|[_ (st & NE & X)]]]]; [exact (G r Hr E)|lia|lia|exact (X DE)|]. specialize (TK st NE). lia.
Qed.
Print Assumptions approximation_ends.
(** Irrational all-primal decomposition: the cones given stand for the tangent cones. *)
Theorem approximation_all_primal : forall P n rows (vs : list (nat -> Q)) cones points, library_contracts P -> q_sv P = LatteLLL -> q_mode P = IrrationalAllPrimalDecomposition -> (0 < n)%nat -> all_vertices n rows vs -> integer_points n rows points ->
  (forall c, In c cones -> ((exists Pr k, (Pr = nonzero \/ Pr = positive) /\ reachable Pr k (fst (fst c))) /\ dim (fst (fst c)) = n) /\ triangulates n (snd (fst c)) (q_tri P (snd (fst c)))) ->
  Forall2 (stands_for n rows) vs cones ->
  forall g, length g = n -> exists F2, forall f1 f2 size pick shown met, (F2 <= f2)%nat ->
  approximate_cones (with_fuel P f1 f2) n size g pick cones = Ok (shown, met) -> irrational_run n met -> brackets shown (Z.of_nat (length points)).
Proof.
  intros P n rows vs cones points (KC & OC & XG & _) SV EM Hn AV IP HC HS g Lg.
  assert (HT : forall x, length x = n -> lsum (map (fun c : vcone => hfun n (q_mode P) (fst (fst c)) (snd (fst c)) x) cones) = lsum (map (fun v => Tind n rows v x) vs)).
  { intros x Hx. rewrite EM. assert (PV : forall v, In v vs -> in_polyhedron n rows v) by (intros v Hv; apply AV, Hv). clear -HS Hx PV. induction HS as [|v c vs cones S1 HS IH]; [reflexivity|]. cbn [map]. rewrite !lsum_cons, IH by (intros u Hu; apply PV; now right). f_equal. cbn [hfun].
    specialize (S1 x Hx). pose proof (gen_ok n (snd (fst c)) (BrionProofs4.at_ (coord (fst (fst c))) x)) as GB. unfold BrionProofs4.at_ in GB. unfold fgen, BrionProofs4.at_. destruct (satb n (gen_rows n (snd (fst c))) (fun k => (zpoint x k - coord (fst (fst c)) k)%Q)); destruct (tind_iff n rows v x (PV v (or_introl eq_refl))) as [[-> T]|[-> T]]; try reflexivity; exfalso; [apply T, S1, GB; reflexivity|]. apply S1, GB in T. discriminate. }
  assert (HC' : forall c, In c cones -> usable n (fst (fst c)) /\ triangulates n (snd (fst c)) (q_tri P (snd (fst c))) /\ (q_mode P = IrrationalPrimalDecomposition -> forall t, In t (q_tri P (snd (fst c))) -> rays_primitive n t)) by (intros c Hc; destruct (HC c Hc) as [U T]; split; [exact U|]; split; [exact T|]; rewrite EM; discriminate).
  destruct (approx_sound P n rows points vs cones Hn KC OC XG SV ltac:(rewrite EM; discriminate) HC' AV IP HT g Lg) as (F2 & H). exists F2. intros f1 f2 size pick shown met Hf E OW. exact (brackets_of n points (shown, met) (H f1 f2 size pick _ Hf E) OW).
Qed.
Print Assumptions approximation_all_primal.

(** The hypotheses are met: 2x + 3y <= 7, x, y >= 0, the cone with the largest difference
    first. *)
Fixpoint best (h : list hitem) (i bi : nat) (bd : Q) : nat :=
  match h with [] => bi | (_, _, b) :: h' => if Qlt_le_dec bd (snd b - fst b) then best h' (S i) i (snd b - fst b)%Q else best h' (S i) bi bd end.
Definition top (st : astate) : nat := best (a_heap st) 0 0 0%Q.
Lemma best_in h : forall i bi bd, (bi < i)%nat -> (best h i bi bd < i + length h)%nat.
Proof. induction h as [|[[v d] b] h IH]; intros i bi bd H; cbn [best length]; [lia|]. destruct (Qlt_le_dec bd (snd b - fst b)); [specialize (IH (S i) i (snd b - fst b)%Q); lia|specialize (IH (S i) bi bd); lia]. Qed.
Example top_takes : takes_from_heap top.
Proof. intros st NE. unfold top. destruct (a_heap st) as [|[[v d] b] h]; [congruence|]. cbn [best length]. destruct (Qlt_le_dec 0 (snd b - fst b)); [pose proof (best_in h 1 0 (snd b - fst b)%Q); lia|pose proof (best_in h 1 0 0%Q); lia]. Qed.
Example takes_first : takes_from_heap (fun _ => 0%nat).
Proof. intros st NE. destruct (a_heap st); [congruence|]. cbn. lia. Qed.
Lemma not_on_wall n v rays c : n_vectors n rays -> det n (ent rays) <> 0 -> det_and_facets n rays = Ok c -> scales n v -> is_irrational n c v = Ok true -> forall x, ~ on_wall n (coord v) rays (zpoint x).
Proof.
  intros NV D0 E SC IR x W. destruct (det_and_facets_cone_ok n rays c NV (det_indep n rays D0) E) as [OK <-]. destruct (irrational_iff n c OK v SC) as (b & E2 & H). rewrite IR in E2. injection E2 as <-. apply (on_wall_iff n c OK) in W as (i & Hi & EQ). rewrite phi_zpoint in EQ. exact (proj1 H eq_refl i _ Hi (Qeq_sym _ _ EQ)).
Qed.
Example triangle_primitive : forall mode, primitive_normals (sample_params mode) 2 (triangle_rows 7) triangle_vertices.
Proof.
  intros mode v t Hv Ht i Hi m H. pose proof (H 0%nat ltac:(lia)) as H0. pose proof (H 1%nat ltac:(lia)) as H1. clear H.
  assert (B : Z.gcd (vat t i 0) (vat t i 1) = 1); [|rewrite <- B; now apply Z.gcd_greatest].
  assert (C : forall w, In w triangle_vertices -> forallb (fun t => forallb (fun i => Z.gcd (vat t i 0) (vat t i 1) =? 1) (seq 0 2)) (q_tri (sample_params mode) (outer_normals 2 (triangle_rows 7) (coord w))) = true) by (intros w [<-|[<-|[<-|[]]]]; vm_compute; reflexivity).
  specialize (C v Hv). rewrite forallb_forall in C. specialize (C t Ht). rewrite forallb_forall in C. specialize (C i ltac:(apply in_seq; lia)). now apply Z.eqb_eq.
Qed.
Definition shown_of (o : outcome (list (Q * Q) * list (rvec * bcone))) : list (Q * Q) := match o with Ok (l, _) => map (fun p => (Qred (fst p), Qred (snd p))) l | Err _ => [] end.
Definition met_of (o : outcome (list (Q * Q) * list (rvec * bcone))) : list (rvec * bcone) := match o with Ok (_, l) => l | Err _ => [] end.
Definition triangle_run : outcome (list (Q * Q) * list (rvec * bcone)) := approximate (sample_params DualDecomposition) 2 100000 [7;5] top (triangle_rows 7) triangle_vertices.
Example triangle_approximation : shown_of triangle_run = [(-5281 # 770, 23 # 1); (174 # 77, 185 # 11); (8 # 1, 8 # 1)]%Q.
Proof. vm_compute. reflexivity. Qed.
Ltac met_case := match goal with |- ~ on_wall ?n _ ?rays _ => let c := eval vm_compute in (det_and_facets n rays) in match c with Ok ?c' => apply (not_on_wall n _ rays c'); [split; [reflexivity|repeat constructor]|vm_compute; discriminate|vm_compute; reflexivity| |vm_compute; reflexivity] end end.
Ltac met_scales := match goal with |- scales ?n ?v => let r := eval vm_compute in (scale_to_integer v n) in match r with Ok (?v', ?w, ?s) => exists v', w, s; split; [vm_compute; reflexivity|split; [discriminate|split; [reflexivity|]]]; intros i Hi; (destruct i as [|[|i]]; [vm_compute; reflexivity|vm_compute; reflexivity|lia]) end end.
Example triangle_irrational : match triangle_run with Ok (_, met) => irrational_run 2 met /\ (length met = 7)%nat | Err _ => False end.
Proof.
  destruct triangle_run as [[shown met]|e] eqn:E; [|vm_compute in E; discriminate]. assert (M : met = met_of triangle_run) by now rewrite E. rewrite M. clear E M shown met. match goal with |- irrational_run 2 ?l /\ _ => let l' := eval vm_compute in l in change l with l' end. split; [|reflexivity].
  intros v d x H. cbn [In] in H. repeat (destruct H as [H|H]; [injection H as <- <-; cbn [b_cone s_rays]; met_case; met_scales|]). destruct H.
Qed.
Example triangle_small : match triangle_run with Ok (_, met) => small_facets (sample_params DualDecomposition) 2 met | Err _ => False end.
Proof.
  destruct triangle_run as [[shown met]|e] eqn:E; [|vm_compute in E; discriminate]. assert (M : met = met_of triangle_run) by now rewrite E. rewrite M. clear E M shown met. match goal with |- small_facets _ 2 ?l => let l' := eval vm_compute in l in change l with l' end.
  intros v d i k H. change (8 * (Z.of_nat 2 ^ Z.of_nat (q_depth (sample_params DualDecomposition))) ^ Z.of_nat (2 - 1)) with 16. cbn [In] in H. repeat (destruct H as [H|H]; [injection H as <- <-; cbn [b_cone s_facets]; unfold vat; destruct i as [|[|[|i]]]; destruct k as [|[|[|k]]]; cbn [nth]; lia|]). destruct H.
Qed.
(** The bounds of one of its cones. *)
Example one_cone : match det_and_facets 2 [[1;2];[-2;1]] with Ok c => match cone_bounds 2 [7;5] (mkRV [1;-1] [2;3] false [] 0) (mkB 1 c) with Ok (l, u) => Qred l = (-125 # 18)%Q /\ Qred u = (5005 # 1836)%Q | Err _ => False end | Err _ => False end.
Proof. vm_compute. auto. Qed.
Example segment_approximation : shown_of (approximate_cones (sample_params IrrationalAllPrimalDecomposition) 1 100000 [1] top segment_cones) = [(4 # 1, 4 # 1)]%Q.
Proof. vm_compute. reflexivity. Qed.

(** Refutations.  A step of the decomposition that finds no vector to lower the index (it
    returns false with the subspace-avoiding choice of short vectors) loses the cone: the pair
    shown last is not exact and does not enclose the number, although libraries, polytope and
    cones meet all other hypotheses. *)
Definition no_omega (l : nat) (rays : list (list Z)) : list Z := map (Z.mul 1000) (nth 0 rays []).
Definition losing_params : params := mkParams 40 200 1 IrrationalPrimalDecomposition SubspaceAvoidingLLL 1 no_omega cramer_ker xgcd_euclid sample_tri.
Lemma no_omega_ok : omega_contract no_omega.
Proof.
  intros n l rays Hn [LR FR] LI. unfold no_omega. rewrite Forall_forall in FR. assert (L0 : length (nth 0 rays []) = n) by (apply FR, nth_In; lia). split; [now rewrite map_length|].
  assert (E : exists k, (k < n)%nat /\ vat rays 0 k <> 0).
  { destruct (existsb (fun k => negb (vat rays 0 k =? 0)) (seq 0 n)) eqn:EX; [apply existsb_exists in EX as (k & Hk & Ek); apply in_seq in Hk; exists k; split; [lia|]; now apply negb_true_iff, Z.eqb_neq in Ek|exfalso].
    pose proof (LI (fun k => if Nat.eqb k 0 then 1 else 0)) as L1. assert (X : (if Nat.eqb 0 0 then 1 else 0) = 0); [|discriminate]. apply L1; [|exact Hn]. intros j Hj. rewrite sumz_zsum, (zsum_single n _ 0 Hn) by (intros k Hk NE; rewrite (proj2 (Nat.eqb_neq k 0) NE); ring). cbn [Nat.eqb]. rewrite Z.mul_1_l.
    destruct (Z.eq_dec (vat rays 0 j) 0) as [E0|N0]; [exact E0|]. assert (Y : existsb (fun k => negb (vat rays 0 k =? 0)) (seq 0 n) = true); [|congruence]. apply existsb_exists. exists j. split; [apply in_seq; lia|]. now apply negb_true_iff, Z.eqb_neq. }
  destruct E as (k & Hk & Nk). exists k. split; [exact Hk|]. rewrite (nth_indep (map (Z.mul 1000) (nth 0 rays [])) 0 (1000 * 0)) by (rewrite map_length; lia). rewrite (map_nth (Z.mul 1000)). unfold vat in Nk. lia.
Qed.
Theorem failed_step_loses_cone : exists P n rows vs points g size pick shown met, library_contracts P /\ polytope_input P n rows vs /\ q_mode P <> IrrationalAllPrimalDecomposition /\ primitive_normals P n rows vs /\ integer_points n rows points /\ length g = n /\ takes_from_heap pick /\
  approximate P n size g pick rows vs = Ok (shown, met) /\ irrational_run n met /\ ~ brackets shown (Z.of_nat (length points)) /\ q_sv P = SubspaceAvoidingLLL.
Proof.
  set (run := approximate losing_params 2 100000 [7;5] top (triangle_rows 7) triangle_vertices).
  assert (E : exists shown met, run = Ok (shown, met)) by (destruct run as [[s m]|e] eqn:R; [eauto|vm_compute in R; discriminate]). destruct E as (shown & met & E).
  exists losing_params, 2%nat, (triangle_rows 7), triangle_vertices, triangle_solutions, [7;5], 100000, top, shown, met.
  destruct (triangle_input DualDecomposition) as [(H1 & H2 & H3 & H4 & H5) IP].
  split; [split; [exact cramer_ker_ok|split; [exact no_omega_ok|split; [exact xgcd_euclid_contract|split; [discriminate|cbn; lia]]]]|].
  split; [split; [exact H1|split; [exact H2|split; [exact H3|split; [exact H4|exact H5]]]]|].
  split; [discriminate|]. split; [exact (triangle_primitive DualDecomposition)|]. split; [exact IP|]. split; [reflexivity|]. split; [exact top_takes|]. split; [exact E|]. split; [|split; [|reflexivity]].
  - assert (M : met = met_of run) by now rewrite E. rewrite M. unfold run. clear. match goal with |- irrational_run 2 ?l => let l' := eval vm_compute in l in change l with l' end.
    intros v d x H. cbn [In] in H. repeat (destruct H as [H|H]; [injection H as <- <-; cbn [b_cone s_rays]; met_case; met_scales|]). destruct H.
  - intros [B _]. assert (S : shown = match run with Ok (l, _) => l | Err _ => [] end) by now rewrite E. assert (X : exists l u, In (l, u) shown /\ (u < 8)%Q).
    { rewrite S. unfold run. clear. match goal with |- exists l u, In _ ?L /\ _ => let l' := eval vm_compute in L in change L with l' end. eexists. eexists. split; [right; right; left; reflexivity|vm_compute; reflexivity]. }
    destruct X as (l & u & HI & LT). destruct (B l u HI) as [_ B2]. change (inject_Z (Z.of_nat (length triangle_solutions))) with 8%Q in B2. lra.
Qed.
Print Assumptions failed_step_loses_cone.
(** Normals that are not primitive: 0 <= x <= 3 written as 0 <= 2x <= 6 fails an assertion, whatever the
    order and the size of the heap; count itself gives 4. *)
Theorem nonprimitive_normals_abort : forall size pick, approximate (sample_params DualDecomposition) 1 size [1] pick [[0;1];[6;-2]] [mkRV [0] [1] false [] 0; mkRV [3] [1] false [] 0] = Err AssertFail /\
  count (sample_params DualDecomposition) 1 [[1]] [[0;1];[6;-2]] [mkRV [0] [1] false [] 0; mkRV [3] [1] false [] 0] = Ok 4.
Proof.
  intros size pick. split; vm_compute; reflexivity.
Qed.
Print Assumptions nonprimitive_normals_abort.
(** A heap too small for the cones, a maximal index of 0 (cones of index 1 cannot be
    decomposed): assertions.  A vector orthogonal to a ray: an exception nobody catches. *)
Example failing_runs : approximate (sample_params DualDecomposition) 2 1 [7;5] top (triangle_rows 7) triangle_vertices = Err AssertFail /\
  approximate (mkParams 40 200 1 DualDecomposition LatteLLL 0 prim_omega cramer_ker xgcd_euclid sample_tri) 2 100000 [7;5] top (triangle_rows 7) triangle_vertices = Err AssertFail /\
  approximate (sample_params DualDecomposition) 2 100000 [1;0] top (triangle_rows 7) triangle_vertices = Err Thrown.
Proof. vm_compute. auto. Qed.
