(** C42, C43, C48, C66: volumes and integrals of polytopes. *)
From Coq Require Import QArith Qabs Qpower.
From Verif Require Import Common Rational RationalSpec RatVec RatVecSpec Trie TrieSpec TrieProofs TrieProofs2 Integ IntegSpec Det Valuation ValuationSpec ValuationSpec2 ValuationProofs5 ValuationProofs6 ValuationProofs8 ValuationProofs9.
Open Scope Z_scope.

(** C43.  findVolume by triangulation, on an object given by the cone over the polytope or
    by its tangent cones: the sum of the volumes of the simplices of the triangulation. *)
Theorem volume_of_triangulation : forall n T st ps fuel rs, n <> O -> describes n st ps -> simplex_cones n T ->
  exists v st' c idx, find_volume T fuel rs Triangulation st = Ok (v, st') /\ lowest_terms v /\ triangulated n T ps c idx /\
    (value v == total_volume n (simplices_of ps idx))%Q.
Proof. intros. now apply volume_ok. Qed.
Print Assumptions volume_of_triangulation.

(** C42.  findIntegral of a sum of powers of linear forms, and of a polynomial: dilating
    the polytope to integer vertices changes nothing.  The result is the integral over the
    simplices of the triangulation. *)
Theorem integral_of_forms : forall n T st ps l fuel rs rs', n <> O -> (n < 1000)%nat -> describes n st ps -> simplex_cones n T ->
  Forall (form_input n) l -> (exists p, In p l /\ ~ (value (fst (fst p)) == 0)%Q) ->
  exists p v st' c idx, insert_all rat_add rat_zero l (new_sum n) = Ok p /\
    find_integral_forms T fuel rs rs' Triangulation p st = Ok (v, st') /\ lowest_terms v /\ triangulated n T ps c idx /\
    (value v == forms_integral n (simplices_of ps idx) l)%Q.
Proof. intros. now apply forms_ok. Qed.
Print Assumptions integral_of_forms.
Theorem integral_of_polynomial : forall n D T st ps l fuel rs rs', n <> O -> (n < 1000)%nat -> describes n st ps -> simplex_cones n T ->
  polynomial_input n D l -> NoDup (map snd (nonzero_monomials l)) ->
  exists p v st' c idx, insert_all rat_add rat_zero (as_input l) (new_sum n) = Ok p /\
    find_integral_polynomial T fuel rs rs' Triangulation p st = Ok (v, st') /\ lowest_terms v /\ triangulated n T ps c idx /\
    forall J, integrates n (simplices_of ps idx) D J -> (value v == J (poly_at (input_poly l)))%Q.
Proof.
  intros n D T st ps l fuel rs rs' Hn Hn' HD HT HL ND. destruct (polynomial_ok n D T st ps l fuel rs rs' Hn Hn' HD HT HL) as (p & P1 & _ & P3).
  destruct (P3 ND) as (v & st' & c & idx & H). exists p, v, st', c, idx. split; auto.
Qed.
Print Assumptions integral_of_polynomial.

(** C48, refuted: every polynomial that names some monomial twice (with coefficients that
    are not zero) is refused by a failed assertion, by either algorithm; so the answer is
    not that of the polynomial with the coefficients added (integral_of_polynomial). *)
Theorem repeated_monomials_refuted : forall n D T st ps l fuel rs rs' a, n <> O -> (n < 1000)%nat -> describes n st ps -> simplex_cones n T ->
  polynomial_input n D l -> ~ NoDup (map snd (nonzero_monomials l)) ->
  exists p, insert_all rat_add rat_zero (as_input l) (new_sum n) = Ok p /\ find_integral_polynomial T fuel rs rs' a p st = Err AssertFail.
Proof.
  intros n D T st ps l fuel rs rs' a Hn Hn' HD HT HL ND. destruct (polynomial_ok n D T st ps l fuel rs rs' Hn Hn' HD HT HL) as (p & P1 & P2 & _). exists p. split; auto.
Qed.
Print Assumptions repeated_monomials_refuted.
(** The zero polynomial: NULL is dereferenced. *)
Theorem zero_polynomial_refuted : forall n T st ps l fuel rs rs' a, n <> O -> describes n st ps -> Forall (fun p => lowest_terms (fst p)) l ->
  nonzero_monomials l = [] ->
  exists p, insert_all rat_add rat_zero (as_input l) (new_sum n) = Ok p /\ find_integral_polynomial T fuel rs rs' a p st = Err NullDeref.
Proof.
  intros n T st ps l fuel rs rs' a Hn HD HL NZ. exists (new_sum n). split.
  - clear - HL NZ. unfold insert_all, as_input. induction HL as [|q l H HF IH]; cbn [map fold_out]; [reflexivity|]. unfold nonzero_monomials in NZ. cbn [filter] in NZ.
    destruct (Qeq_bool (value (fst q)) 0) eqn:E; cbn [negb] in NZ; [|discriminate]. rewrite rat_zero_num in E by auto. cbn [fst snd]. unfold insert_form at 1. rewrite E. cbn [bind]. apply IH. exact NZ.
  - destruct (dilate_object n st ps Hn HD) as (k & st1 & D1 & _). unfold find_integral_polynomial. rewrite D1. reflexivity.
Qed.
Print Assumptions zero_polynomial_refuted.

(** C66.  Several questions to one object given by the cone over the polytope: if the
    first is an integral, or if all are volumes, every answer is right. *)
Theorem one_cone_history_partial : forall n D T ps c q qs, n <> O -> (n < 1000)%nat -> ps <> [] -> cone_over n ps (vc_rays c) -> simplex_cones n T ->
  Forall (valid n D) (q :: qs) ->
  is_integral q \/ Forall (fun q => q = AskVolume) (q :: qs) ->
  exists cs vs c' idx, calls_of n (q :: qs) = Ok cs /\ vrun T cs (from_one (S n) c) = Ok vs /\ triangulated n T ps c' idx /\
    Forall2 (answer n D (simplices_of ps idx)) (q :: qs) vs.
Proof.
  intros n D T ps c q qs Hn Hn' NE HC HT HV [HI|HA]; [now apply integral_first|].
  destruct (volumes_only n T ps c HC HT) as (idx & TR & H). destruct (H (length (q :: qs))) as (vs & V1 & V2 & V3).
  exists (repeat CallVolume (length (q :: qs))), vs, c, idx. split; [|split; [exact V1|split; [exact TR|]]].
  - clear - HA. induction HA as [|x l -> HF IH]; cbn [calls_of length repeat]; [reflexivity|]. cbn [call_of bind]. rewrite IH. reflexivity.
  - clear - HA V2 V3. revert vs V2 V3. induction HA as [|x l -> HF IH]; intros [|v vs] L F; try discriminate; constructor; [exact (Forall_inv F)|]. apply IH; [now injection L|exact (Forall_inv_tail F)].
Qed.
Print Assumptions one_cone_history_partial.

(** ** Examples *)
(** The rectangle [0,1/2] x [0,1], triangulated by a diagonal. *)
Definition T2 (m : nat) (c : vcone) : list vcone :=
  match m, vc_rays c with
  | 3%nat, [a; b; d; e] => [mkVC (vc_vertex c) [a; b; d] 1; mkVC (vc_vertex c) [a; d; e] 1]
  | _, _ => []
  end.
Lemma T2_ok : simplex_cones 2 T2.
Proof.
  intros [v rays co]. destruct rays as [|a [|b [|d [|e [|f rays]]]]]; try (exists []; split; [reflexivity|constructor]).
  exists [[0; 1; 2]; [0; 2; 3]]%nat. split; [reflexivity|]. repeat constructor.
Qed.
Definition rect : list (list Q) := [[0; 0]; [1#2; 0]; [1#2; 1]; [0; 1]]%Q.
Definition rect_one : vcone := mkVC (rv_zero 3) [[0; 0; 1]; [1; 0; 2]; [1; 2; 2]; [0; 1; 1]] 1.
Definition vtx (a b c d : Z) : rvec := mkRV [a; c] [b; d] false [] 0.
Definition rect_rays : list vcone :=
  [mkVC (vtx 0 1 0 1) [[1; 0]; [0; 1]] 1; mkVC (vtx 1 2 0 1) [[-1; 0]; [0; 1]] 1; mkVC (vtx 1 2 1 1) [[-1; 0]; [0; -1]] 1; mkVC (vtx 0 1 1 1) [[1; 0]; [0; -1]] 1].
Example rect_one_ok : describes 2 (from_one 3 rect_one) rect.
Proof.
  left. exists rect_one. split; [reflexivity|]. unfold rect, rect_one, cone_over. cbn [vc_rays].
  repeat constructor; try (cbn; lia); intros [|[|k]] H; try lia; vm_compute; reflexivity.
Qed.
Example rect_rays_ok : exists ps, describes 2 (from_cones 2 rect_rays) ps /\ Forall2 (Forall2 Qeq) ps rect.
Proof.
  eexists. split.
  - right. exists rect_rays. split; [reflexivity|]. split; [discriminate|]. split; [|reflexivity].
    unfold rect_rays. repeat constructor; cbn; try lia; discriminate.
  - vm_compute. repeat constructor.
Qed.
Definition run_volume st := bind (find_volume T2 0 (fun _ => O) Triangulation st) (fun r => Ok (fst r)).
Example volume_rect : run_volume (from_one 3 rect_one) = Ok (mkRat 1 2) /\ run_volume (from_cones 2 rect_rays) = Ok (mkRat 1 2).
Proof. vm_compute. split; reflexivity. Qed.
(** 3 + (x + 2y)^2/2 on the rectangle: 3/2 + 23/48, for both objects. *)
Definition forms2 : list (rat * Z * list Z) := [(mkRat 3 1, 0, [0; 0]); (mkRat 1 1, 2, [1; 2])].
Example forms2_ok : Forall (form_input 2) forms2.
Proof. repeat constructor; cbn; lia. Qed.
Definition run_forms l st := bind (insert_all rat_add rat_zero l (new_sum 2)) (fun p =>
  bind (find_integral_forms T2 0 (fun _ => O) (fun _ => O) Triangulation p st) (fun r => Ok (fst r))).
Example forms_rect : run_forms forms2 (from_one 3 rect_one) = run_forms forms2 (from_cones 2 rect_rays) /\
  match run_forms forms2 (from_one 3 rect_one) with Ok v => (value v == forms_integral 2 (simplices_of rect [[0; 1; 2]; [0; 2; 3]]%nat) forms2)%Q /\ (value v == 95#48)%Q | Err _ => False end.
Proof. vm_compute. split; [reflexivity|]. split; reflexivity. Qed.
(** 1 + 2xy^2 on the rectangle: 1/2 + 1/12. *)
Definition poly2 : list (rat * list Z) := [(mkRat 1 1, [0; 0]); (mkRat 2 1, [1; 2]); (mkRat 0 1, [1; 2])].
Definition run_poly a l st := bind (insert_all rat_add rat_zero (as_input l) (new_sum 2)) (fun p =>
  bind (find_integral_polynomial T2 0 (fun _ => O) (fun _ => O) a p st) (fun r => Ok (fst r))).
Example poly2_ok : polynomial_input 2 3 poly2 /\ NoDup (map snd (nonzero_monomials poly2)).
Proof.
  split; [|vm_compute; repeat constructor; cbn; intuition discriminate].
  split; [lia|]. split; [lia|]. split; [|vm_compute; discriminate]. repeat constructor; cbn; lia.
Qed.
Example poly_rect : run_poly Triangulation poly2 (from_one 3 rect_one) = Ok (mkRat 7 12) /\ run_poly Triangulation poly2 (from_cones 2 rect_rays) = Ok (mkRat 7 12).
Proof. vm_compute. split; reflexivity. Qed.
(** A functional that integrates over [0,1/2] (Simpson's rule), with polynomials of degree <= 2. *)
Definition simpson (f : list Q -> Q) : Q := ((1#12) * (f [0%Q] + 4 * f [1#4]%Q + f [1#2]%Q))%Q.
Example simpson_integrates : integrates 1 [[[0%Q]; [1#2]%Q]] 2 simpson.
Proof.
  split.
  - unfold simpson. split; [|split].
    + intros f g H. rewrite !H by reflexivity. reflexivity.
    + intros f g. ring.
    + intros c f. ring.
  - intros [|a [|b f]] m L Hm; cbn in L; try lia. unfold simpson, power_integral, parallelepiped. destruct m as [|[|[|m]]]; try lia;
      cbn [qdot map qhsym sum_over fold_right seq Nat.eqb qdet nth zfact Nat.add Nat.sub].
    + vm_compute. reflexivity.
    + cbn. field.
    + cbn. field.
Qed.
(** The same monomial twice: x*y + x*y. *)
Definition twice : list (rat * list Z) := [(mkRat 1 1, [1; 1]); (mkRat 1 1, [1; 1])].
Example twice_refused : polynomial_input 2 2 twice /\ ~ NoDup (map snd (nonzero_monomials twice)) /\
  run_poly Triangulation twice (from_one 3 rect_one) = Err AssertFail /\ run_poly Triangulation [(mkRat 2 1, [1; 1])] (from_one 3 rect_one) = Ok (mkRat 1 8).
Proof.
  split; [split; [lia|split; [lia|split; [repeat constructor; cbn; lia|vm_compute; discriminate]]]|]. split; [|vm_compute; split; reflexivity].
  vm_compute. intros H. inversion H as [|? ? N _]; subst. apply N. now left.
Qed.
Example zero_crashes : run_poly Triangulation [(mkRat 0 1, [1; 1])] (from_one 3 rect_one) = Err NullDeref.
Proof. vm_compute. reflexivity. Qed.
(** A good history, and the wrong ones. *)
Definition ask (qs : list question) (st : pval) : outcome (list rat) := bind (calls_of 2 qs) (fun cs => vrun T2 cs st).
Example good_history : ask [AskForms forms2; AskVolume; AskPolynomial poly2; AskVolume] (from_one 3 rect_one) = Ok [mkRat 95 48; mkRat 1 2; mkRat 7 12; mkRat 1 2].
Proof. vm_compute. reflexivity. Qed.
(** C66, refuted: the volume and then an integral; for an object given by tangent cones an
    integral and then the volume, the same integral twice. *)
Theorem history_refuted :
  ask [AskPolynomial poly2] (from_one 3 rect_one) = Ok [mkRat 7 12] /\
  ask [AskVolume; AskPolynomial poly2] (from_one 3 rect_one) <> Ok [mkRat 1 2; mkRat 7 12] /\
  (exists v w, ask [AskVolume; AskPolynomial poly2] (from_one 3 rect_one) = Ok [v; w] /\ ~ (value w == 7#12)%Q) /\
  ask [AskVolume; AskPolynomial poly2] (from_cones 2 rect_rays) <> Ok [mkRat 1 2; mkRat 7 12] /\
  (exists v w, ask [AskPolynomial poly2; AskVolume] (from_cones 2 rect_rays) = Ok [v; w] /\ (value v == 7#12)%Q /\ (value w == 2)%Q) /\
  (exists v w, ask [AskPolynomial poly2; AskPolynomial poly2] (from_cones 2 rect_rays) = Ok [v; w] /\ (value v == 7#12)%Q /\ ~ (value w == 7#12)%Q).
Proof.
  split; [vm_compute; reflexivity|]. split; [vm_compute; discriminate|]. split; [eexists _, _; split; [vm_compute; reflexivity|vm_compute; discriminate]|].
  split; [vm_compute; discriminate|]. split; eexists _, _; (split; [vm_compute; reflexivity|]); split; vm_compute; try reflexivity; discriminate.
Qed.
Print Assumptions history_refuted.
