(** C20, C41, C63: Todd coefficients, exponential residues, Ehrhart coefficients, counting.
    Specification: ExpSpec.v. *)
From Coq Require Import QArith Qfield Qpower Lqa.
From Verif Require Import Common IntegSpec IntegMath DecompProofs InterpProofs2 Series BernoulliProofs ZMat HermiteProofs Piped Exponential ExpSpec ExpProofs ExpProofs2 ExpProofs3 ExpProofs4.
Open Scope Q_scope.

(** C20. evaluate_todd always succeeds; the n+1 numbers are the coefficients of the power
    series T with T * prod (1 - exp(x_i t))/(x_i t) = 1, and of no other series. *)
Theorem todd_coefficients : forall xs : list Z, exists T, evaluate_todd xs = Ok T /\ length T = S (length xs) /\
  (exists F, conv F (product (map exp_quotient xs)) ~= sone) /\
  forall F, conv F (product (map exp_quotient xs)) ~= sone -> forall k, (k <= length xs)%nat -> nth k T 0 == F k.
Proof.
  intros xs. destruct (evaluate_todd_ok xs) as (T & E & L & N). exists T. split; auto. split; auto. split; [exists (todd_ser xs); apply todd_ser_inverse|].
  intros F HF k Hk. rewrite N by auto. apply (conv_cancel (product (map exp_quotient xs))); [apply product_eq_0|]. intros n. now rewrite HF, todd_ser_inverse.
Qed.
Example todd_witness : match evaluate_todd [2%Z; (-3)%Z] with Ok T => map Qred T | Err _ => [] end = [1; 1 # 2; -5 # 12].
Proof. vm_compute. reflexivity. Qed.

Definition nongeneric (g : list Z) (rays : list (list Z)) : Prop := exists r, In r rays /\ zdot g r = 0%Z.
Lemma nongeneric_prod g rays : nongeneric g rays <-> zprodl (map (zdot g) rays) = 0%Z.
Proof.
  unfold nongeneric. induction rays as [|r rays IH]; cbn [map zprodl]; [split; [intros (r & [] & _)|lia]|]. rewrite Z.mul_eq_0, <- IH. split.
  - intros (x & [->|Hx] & E); [auto|right; eauto].
  - intros [E|(x & Hx & E)]; [exists r|exists x]; split; auto; [now left|now right].
Qed.
(** The residue of one cone: NotGenericException exactly when some ray is orthogonal to the
    generic vector, otherwise the coefficient times the constant term of the Laurent series
    (sum of exp(st)) / prod (1 - exp(<g,r>t)), which exists and is unique. *)
Theorem cone_residue : forall n g c, (length (e_rays c) <= n)%nat ->
  (nongeneric g (e_rays c) /\ residue_single n g c = Err Thrown) \/
  (~ nongeneric g (e_rays c) /\ exists q r, residue_single n g c = Ok q /\ exponential_residue (map (zdot g) (e_rays c)) (e_sps c) r /\ q == inject_Z (e_coef c) * r /\
     forall r', exponential_residue (map (zdot g) (e_rays c)) (e_sps c) r' -> r' == r).
Proof.
  intros n g c L. rewrite nongeneric_prod. destruct (generic_dec g c) as [G|G].
  - right. split; [exact G|]. destruct (single_ok n g c G L) as (q & E & V). exists q, (resF (map (zdot g) (e_rays c)) (e_sps c) (length (e_rays c))). split; auto. pose proof (map_length (zdot g) (e_rays c)) as ML. split; [rewrite <- ML; now apply residue_exists|]. split; auto. intros r' H. rewrite (residue_unique _ _ _ G H), ML. reflexivity.
  - left. split; [unfold generic in G; destruct (Z.eq_dec (zprodl (map (zdot g) (e_rays c))) 0); tauto|now apply residue_single_thrown].
Qed.
Example cone_residue_witness : let c := mkE (-1) [[1%Z; 0%Z]; [1%Z; 2%Z]] [0%Z; 7%Z] 0 in
  match residue_single 2 [2%Z; 5%Z] c with Ok q => Qred q | Err _ => 0 end = (-73 # 144) /\ residue_single 2 [0%Z; 5%Z] c = Err Thrown.
Proof. vm_compute. auto. Qed.

(** C41. Whatever non-generic vectors are tried first, the coefficients accumulated with the
    first generic vector g form a polynomial whose value at every integer t is the residue sum
    of the same cones with every scalar product s replaced by s + t * <g, vertex>. *)
Theorem ehrhart_polynomial : forall n bad g rest cones,
  (forall b, In b (bad ++ [g]) -> Forall (fun c => length (e_rays c) = n) (cones b)) ->
  (forall b, In b bad -> exists c, In c (cones b) /\ nongeneric b (e_rays c)) ->
  (forall c, In c (cones g) -> ~ nongeneric g (e_rays c)) ->
  exists l, ehrhart_list n (bad ++ g :: rest) cones = Ok l /\ length l = S n /\
    forall t, exists r, residue_cones n g (map (fun c => mkE (e_coef c) (e_rays c) (map (fun s => (s + t * e_vertex c)%Z) (e_sps c)) (e_vertex c)) (cones g)) 0 = Ok r /\ poly_at l (inject_Z t) == r.
Proof.
  intros n bad g rest cones L B G. induction bad as [|b bad IH]; cbn [app ehrhart_list].
  - assert (F : Forall (fun c => generic g c /\ length (e_rays c) = n) (cones g)).
    { apply Forall_forall. intros c Hc. split; [unfold generic; rewrite <- nongeneric_prod; auto|]. specialize (L g (or_introl eq_refl)). rewrite Forall_forall in L. auto. }
    destruct (ehrhart_cones_ok n g (cones g) F (repeat 0 (n + 1))) as (l & E & Ll & V); [rewrite repeat_length; lia|]. rewrite E. cbn [bind]. exists l. split; auto. split; auto. intros t.
    destruct (residue_cones_ok n g (map (dilate t) (cones g))) with (acc := 0) as (q & Eq & Vq).
    + apply Forall_map. revert F. apply Forall_impl. intros c [H1 H2]. split; [exact H1|]. cbn [dilate e_rays]. lia.
    + exists q. split; [exact Eq|]. rewrite V, Vq, poly_zero, qsum_map. reflexivity.
  - rewrite ehrhart_cones_none; [cbn [bind]; apply IH| | |rewrite repeat_length; lia].
    + intros x Hx. apply L. now right.
    + intros x Hx. apply B. now right.
    + apply L. now left.
    + intros F. destruct (B b (or_introl eq_refl)) as (c & Hc & N). rewrite Forall_forall in F. apply (F c Hc). now apply nongeneric_prod.
Qed.
(** With fewer rays than variables the code reads past the weights. *)
Theorem ehrhart_low_dimension_refuted : forall n g c coeffs, (length (e_rays c) < n)%nat -> ~ nongeneric g (e_rays c) -> ehrhart_consume n g c coeffs = Err OutOfBounds.
Proof.
  intros n g c coeffs L G. rewrite nongeneric_prod in G. unfold ehrhart_consume. destruct (weights_ok g (e_rays c) G) as (w & E & Lw & _). rewrite E, Lw. destruct (S (length (e_rays c)) <=? n)%nat eqn:B; auto. apply Nat.leb_gt in B. lia.
Qed.
Example ehrhart_low_dimension_witness : ehrhart_consume 2 [1%Z; 1%Z] (mkE 1 [[1%Z; 0%Z]] [0%Z] 0) [0; 0; 0] = Err OutOfBounds.
Proof. vm_compute. reflexivity. Qed.

(** C63. A cone given by its coefficient, rays and points. *)
Definition econe_of (g : list Z) (c : Z * list (list Z) * list (list Z)) : econe := mkE (fst (fst c)) (snd (fst c)) (map (zdot g) (snd c)) 0.
Definition vectors_of_length (n : nat) (l : list (list Z)) : Prop := forall v, In v l -> length v = n.
(** If the rational functions of the cones sum to the generating polynomial of the points, the
    residue computation returns the number of points, whichever vectors are guessed, provided
    one of them is not orthogonal to any ray. *)
Theorem residue_counts : forall n cs points guesses,
  (forall coef rays pts, In (coef, rays, pts) cs -> (length rays <= n)%nat /\ vectors_of_length n rays /\ vectors_of_length n pts) ->
  vectors_of_length n points -> generates n cs points ->
  (exists g, In g guesses /\ forall coef rays pts, In (coef, rays, pts) cs -> ~ nongeneric g rays) ->
  residue_list n guesses (fun g => map (econe_of g) cs) = Ok (Z.of_nat (length points)).
Proof.
  intros n cs points guesses W WP G (g0 & Hg0 & G0).
  assert (F : Forall (gc_ok n) cs).
  { apply Forall_forall. intros [[coef rays] pts] Hc. destruct (W _ _ _ Hc) as (H1 & H2 & H3). unfold gc_ok. cbn [fst snd]. rewrite !Forall_forall. auto. }
  assert (FP : Forall (fun p => length p = n) points) by (apply Forall_forall; auto).
  induction guesses as [|g gs IH]; [destruct Hg0|]. cbn [residue_list]. destruct (all_generic_dec g (map (econe_of g) cs)) as [A|A].
  - destruct (residue_cones_ok n g (map (econe_of g) cs)) with (acc := 0) as (q & E & V).
    + rewrite Forall_map in *. rewrite Forall_forall in *. intros c Hc. split; [now apply A|]. destruct (F c Hc) as [H1 _]. exact H1.
    + rewrite E. rewrite generic_prod in A.
      assert (AR : flat_map e_rays (map (econe_of g) cs) = all_rays cs) by (clear; unfold all_rays; induction cs as [|c cs IH]; cbn [map flat_map]; [reflexivity|now rewrite IH]). rewrite AR in A.
      assert (C : q == qnat (length points)).
      { rewrite V, qsum_map, <- (gtotal_count n g cs points F A FP G), Qplus_0_l. apply qsum_ext. intros c _. reflexivity. }
      apply Qred_complete in C. unfold qnat in C. rewrite C. unfold inject_Z. rewrite qred_int. reflexivity.
  - rewrite residue_cones_thrown; auto.
    + apply IH. destruct Hg0 as [->|Hg0]; auto. exfalso. apply A. rewrite Forall_map, Forall_forall. intros [[coef rays] pts] Hc. unfold generic. cbn [econe_of e_rays fst snd]. rewrite <- nongeneric_prod. eauto.
    + rewrite Forall_map. rewrite Forall_forall in *. intros c Hc. destruct (F c Hc) as [H1 _]. exact H1.
Qed.
(** The Ehrhart version: with a vertex for each cone, and the points of the t-th cone moved by
    t times the vertex. *)
Definition dilated (t : Z) (c : Z * list (list Z) * list (list Z) * list Z) : Z * list (list Z) * list (list Z) :=
  (fst (fst (fst c)), snd (fst (fst c)), map (fun p => vadd p (map (Z.mul t) (snd c))) (snd (fst c))).
Theorem ehrhart_counts : forall n cs guesses,
  (forall coef rays pts v, In (coef, rays, pts, v) cs -> length rays = n /\ vectors_of_length n rays /\ vectors_of_length n pts /\ length v = n) ->
  (exists g, In g guesses /\ forall coef rays pts v, In (coef, rays, pts, v) cs -> ~ nongeneric g rays) ->
  exists l, ehrhart_list n guesses (fun g => map (fun c => mkE (fst (fst (fst c))) (snd (fst (fst c))) (map (zdot g) (snd (fst c))) (zdot g (snd c))) cs) = Ok l /\ length l = S n /\
    forall t points, vectors_of_length n points -> generates n (map (dilated t) cs) points -> poly_at l (inject_Z t) == inject_Z (Z.of_nat (length points)).
Proof.
  intros n cs guesses W (g0 & Hg0 & G0).
  set (mk := fun g (c : Z * list (list Z) * list (list Z) * list Z) => mkE (fst (fst (fst c))) (snd (fst (fst c))) (map (zdot g) (snd (fst c))) (zdot g (snd c))).
  assert (F : Forall (fun c => length (snd (fst (fst c))) = n) cs) by (apply Forall_forall; intros [[[coef rays] pts] v] Hc; apply (W _ _ _ _ Hc)).
  induction guesses as [|g gs IH]; [destruct Hg0|]. cbn [ehrhart_list]. fold mk in IH |- *. change (fun c => mkE (fst (fst (fst c))) (snd (fst (fst c))) (map (zdot g) (snd (fst c))) (zdot g (snd c))) with (mk g).
  assert (FL : Forall (fun c => length (e_rays c) = n) (map (mk g) cs)) by (rewrite Forall_map; exact F).
  destruct (all_generic_dec g (map (mk g) cs)) as [A|A].
  - destruct (ehrhart_cones_ok n g (map (mk g) cs)) with (coeffs := repeat 0 (n + 1)) as (l & E & Ll & V).
    + rewrite Forall_forall in *. intros c Hc. split; auto.
    + rewrite repeat_length. lia.
    + rewrite E. cbn [bind]. exists l. split; auto. split; auto. intros t points WP GP. rewrite V, poly_zero, Qplus_0_l, qsum_map.
      assert (FD : Forall (gc_ok n) (map (dilated t) cs)).
      { rewrite Forall_map. apply Forall_forall. intros [[[coef rays] pts] v] Hc. destruct (W _ _ _ _ Hc) as (H1 & H2 & H3 & H4). unfold gc_ok, dilated. cbn [fst snd]. split; [lia|]. split; [now apply Forall_forall|]. rewrite Forall_map. apply Forall_forall. intros p Hp. specialize (H3 p Hp). rewrite vadd_len; auto. rewrite map_length. congruence. }
      assert (FP : Forall (fun p => length p = n) points) by (apply Forall_forall; auto). rewrite generic_prod in A.
      assert (AR : flat_map e_rays (map (mk g) cs) = all_rays (map (dilated t) cs)) by (clear; unfold all_rays; induction cs as [|c cs IH]; cbn [map flat_map]; [reflexivity|now rewrite IH]). rewrite AR in A.
      change (inject_Z (Z.of_nat (length points))) with (qnat (length points)). rewrite <- (gtotal_count n g _ points FD A FP GP), qsum_map. apply qsum_ext. intros [[[coef rays] pts] v] Hc. destruct (W _ _ _ _ Hc) as (H1 & H2 & H3 & H4).
      unfold value, mk, dilate, dilated. cbn [fst snd e_coef e_rays e_sps e_vertex]. rewrite !map_map.
      assert (EM : map (fun x => (zdot g x + t * zdot g v)%Z) pts = map (fun x => zdot g (vadd x (map (Z.mul t) v))) pts).
      { apply map_ext_in. intros p Hp. rewrite zdot_vadd by (rewrite map_length; rewrite (H3 p Hp); auto). f_equal. unfold zdot. rewrite <- zsum_scal. apply zsum_ext. intros k _. rewrite (map_nth_Z t v k). ring. }
      rewrite EM. reflexivity.
  - rewrite ehrhart_cones_none; auto; [cbn [bind]; apply IH|rewrite repeat_length; lia].
    destruct Hg0 as [->|Hg0]; auto. exfalso. apply A. rewrite Forall_map, Forall_forall. intros [[[coef rays] pts] v] Hc. unfold generic. cbn [mk e_rays fst snd]. rewrite <- nongeneric_prod. eauto.
Qed.
(** The triangle with vertices (0,0), (2,0), (0,2); the first guess is orthogonal to (-1,1). *)
Definition triangle_cones : list (Z * list (list Z) * list (list Z)) :=
  [(1%Z, [[1%Z; 0%Z]; [0%Z; 1%Z]], [[0%Z; 0%Z]]); (1%Z, [[(-1)%Z; 0%Z]; [(-1)%Z; 1%Z]], [[2%Z; 0%Z]]); (1%Z, [[0%Z; (-1)%Z]; [1%Z; (-1)%Z]], [[0%Z; 2%Z]])].
Definition triangle_points : list (list Z) := [[0%Z; 0%Z]; [1%Z; 0%Z]; [2%Z; 0%Z]; [0%Z; 1%Z]; [1%Z; 1%Z]; [0%Z; 2%Z]].
Example residue_counts_witness : generates 2 triangle_cones triangle_points /\ residue_list 2 [[1%Z; 1%Z]; [1%Z; 2%Z]] (fun g => map (econe_of g) triangle_cones) = Ok 6%Z.
Proof. split; [apply gequal_b_ok|]; vm_compute; reflexivity. Qed.
Definition triangle_ehrhart : list (Z * list (list Z) * list (list Z) * list Z) :=
  [(1%Z, [[1%Z; 0%Z]; [0%Z; 1%Z]], [[0%Z; 0%Z]], [0%Z; 0%Z]); (1%Z, [[(-1)%Z; 0%Z]; [(-1)%Z; 1%Z]], [[0%Z; 0%Z]], [1%Z; 0%Z]); (1%Z, [[0%Z; (-1)%Z]; [1%Z; (-1)%Z]], [[0%Z; 0%Z]], [0%Z; 1%Z])].
Example ehrhart_counts_witness : generates 2 (map (dilated 2) triangle_ehrhart) triangle_points /\
  match ehrhart_list 2 [[1%Z; 1%Z]; [1%Z; 2%Z]] (fun g => map (fun c => mkE (fst (fst (fst c))) (snd (fst (fst c))) (map (zdot g) (snd (fst c))) (zdot g (snd c))) triangle_ehrhart) with Ok l => map Qred l | Err _ => [] end = [1; 3 # 2; 1 # 2].
Proof. split; [apply gequal_b_ok|]; vm_compute; reflexivity. Qed.

Print Assumptions todd_coefficients.
Print Assumptions cone_residue.
Print Assumptions ehrhart_polynomial.
Print Assumptions ehrhart_low_dimension_refuted.
Print Assumptions residue_counts.
Print Assumptions ehrhart_counts.
