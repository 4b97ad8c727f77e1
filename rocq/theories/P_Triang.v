(** C78: the triangulation of a cone with cddlib.  Specification: TriangSpec.v, CountSpec.v. *)
From Coq Require Import QArith Qfield Lqa.
From Verif Require Import Common Util UtilSpec UtilProofs PipedSpec PipedProofs3 ConeSpec CountSpec Triang TriangSpec TriangProofs TriangProofs2 TriangProofs3 TriangProofs4.
Open Scope Z_scope.

(** C78.  For every cone spanned by its rays (repeated, redundant or zero rays, and cones that
    are not pointed, included), both choices of the heights, every random stream: if cones are
    delivered, they are a triangulation of the cone by some of its rays. *)
Theorem triangulation_exact :
  forall dd rnd max_height fulldim n rs fuel h V k Ts k1,
  cddlib_contract dd -> double_rounding rnd -> 1 <= max_height <= INT_MAX -> (forall i, 0 <= rs i < 2 ^ 31) ->
  Forall (fun r => length r = n) V -> spans n V ->
  triangulate_cone dd rnd max_height false fulldim n rs fuel h V k = Ok (Ts, k1) ->
  triangulates n V Ts /\ forall T, In T Ts -> incl T V.
Proof.
  intros dd rnd mh fd n rs fuel h V k Ts k1 DD HR HM RS FV Sp H. pose proof (cone_ok dd rnd mh false n rs DD HR HM RS fd fuel h V k Ts k1 FV Sp H) as G.
  split; [now apply (good_triangulates false)|]. intros T HT. apply (proj1 G T HT).
Qed.
Print Assumptions triangulation_exact.
(** With --nonsimplicial-subdivision the cones need not be simplicial. *)
Theorem subdivision_exact :
  forall dd rnd max_height nonsimplicial fulldim n rs fuel h V k Ts k1,
  cddlib_contract dd -> double_rounding rnd -> 1 <= max_height <= INT_MAX -> (forall i, 0 <= rs i < 2 ^ 31) ->
  Forall (fun r => length r = n) V -> spans n V ->
  triangulate_cone dd rnd max_height nonsimplicial fulldim n rs fuel h V k = Ok (Ts, k1) -> subdivides n V Ts.
Proof.
  intros dd rnd mh ns fd n rs fuel h V k Ts k1 DD HR HM RS FV Sp H. apply (good_subdivides ns). eapply cone_ok; eauto.
Qed.
Print Assumptions subdivision_exact.
(** Otherwise cddlib reported an error, or the recursion has not come to an end. *)
Theorem triangulation_outcomes :
  forall dd rnd max_height nonsimplicial fulldim n rs fuel h V k e,
  cddlib_contract dd -> double_rounding rnd -> 1 <= max_height <= INT_MAX -> (forall i, 0 <= rs i < 2 ^ 31) ->
  Forall (fun r => length r = n) V -> spans n V ->
  triangulate_cone dd rnd max_height nonsimplicial fulldim n rs fuel h V k = Err e -> e = OutOfFuel \/ (e = Exited /\ exists gens, dd gens = None).
Proof. intros. eapply cone_err; eauto. Qed.
Print Assumptions triangulation_outcomes.
(** The recursion ends at once if the heights drawn are generic: no linear form takes these
    values at more than n of the rays. *)
Theorem generic_heights_suffice :
  forall dd rnd max_height nonsimplicial fulldim n rs fuel h V k hs k1,
  cddlib_contract dd -> double_rounding rnd -> 1 <= max_height <= INT_MAX -> (forall i, 0 <= rs i < 2 ^ 31) ->
  Forall (fun r => length r = n) V -> spans n V ->
  draw_heights rnd max_height h V rs k = Ok (hs, k1) -> generic_heights n V hs -> dd (lifted n hs V) <> None ->
  exists Ts k2, triangulate_cone dd rnd max_height nonsimplicial fulldim n rs (S fuel) h V k = Ok (Ts, k2).
Proof.
  intros dd rnd mh ns fd n rs fuel h V k hs k1 DD HR HM RS FV Sp Eh G N. unfold triangulate_cone. destruct (fd && (n =? length V)%nat); [eauto|].
  destruct (generic_run dd rnd mh ns n rs DD HR HM RS fuel h V k hs k1 FV Sp Eh G N) as (Cs & E). rewrite E. cbn [bind]. eauto.
Qed.
Print Assumptions generic_heights_suffice.
(** The cone of outer normals at a vertex of a polyhedron is such a cone: the assumption on
    triangulations made in C72-C77 follows from that on cddlib's facets. *)
Theorem normal_cones_triangulated :
  forall dd rnd max_height fulldim n rs fuel h rows v k Ts k1,
  cddlib_contract dd -> double_rounding rnd -> 1 <= max_height <= INT_MAX -> (forall i, 0 <= rs i < 2 ^ 31) ->
  (forall c, In c rows -> length c = S n) -> is_vertex n rows v ->
  triangulate_cone dd rnd max_height false fulldim n rs fuel h (outer_normals n rows v) k = Ok (Ts, k1) ->
  triangulates n (outer_normals n rows v) Ts.
Proof.
  intros dd rnd mh fd n rs fuel h rows v k Ts k1 DD HR HM RS L Vx H. destruct (vertex_spans n rows v L Vx) as [Sp FV].
  apply (triangulation_exact dd rnd mh fd n rs fuel h (outer_normals n rows v) k Ts k1); auto.
Qed.
Print Assumptions normal_cones_triangulated.

(** ** Examples: the cone over a square *)
Definition square_cone : list (list Z) := [[0;0;1];[1;0;1];[1;1;1];[0;1;1]].
Definition bent_facets : list (bool * list bool) :=
  [(true, [true;true;true;true;true]); (false, [true;true;false;true;false]); (false, [false;true;true;true;false]); (false, [true;false;false;true;true]); (false, [true;true;false;false;true]);
   (false, [false;true;true;false;true]); (false, [false;false;true;true;true])].
Definition bent_normals : list (list Z) := [[1;0;0;0;0]; [0;1;0;0;-1]; [0;1;-1;-1;0]; [0;0;1;0;0]; [0;0;0;1;0]; [0;0;-1;0;1]; [0;0;0;-1;1]].
Definition flat_facets (back : bool) : list (bool * list bool) :=
  [(true, [true;true;true;true;true]); (false, [true;true;true;true;false]); (false, [true;false;false;true;true]); (false, if back then [false;false;true;true;true] else [true;true;false;false;true]);
   (false, [false;true;true;false;true]); (false, if back then [true;true;false;false;true] else [false;false;true;true;true])].
Definition flat_normals : list (list Z) := [[1;0;0;0;0]; [0;1;0;0;-1]; [0;0;1;0;0]; [0;0;0;1;0]; [0;0;-1;0;1]; [0;0;0;-1;1]].
Definition matrix_eqb (A B : list (list Z)) : bool := if list_eq_dec (list_eq_dec Z.eq_dec) A B then true else false.
Definition sample_dd (gens : list (list Z)) : option (list (bool * list bool)) :=
  if matrix_eqb gens (lifted 3 [1;1;2;1] square_cone) then Some bent_facets
  else if matrix_eqb gens (lifted 3 [1;1;1;1] square_cone) then Some (flat_facets false)
  else if matrix_eqb gens (lifted 3 [1;1;1;1] (rev square_cone)) then Some (flat_facets true) else None.
Ltac few i := destruct i as [|[|[|[|[|[|[|i]]]]]]].
Ltac each_gen tac := intros g Hg; cbn in Hg; repeat (destruct Hg as [<-|Hg]; [tac|]); try contradiction.
Ltac eval_pairing := unfold pairing, zpoint, sumq, nth, inject_Z in *.
Ltac pick g H E := match type of H with forall x, _ -> _ => pose proof (H g ltac:(cbn; tauto)) as E end.
Lemma bent_describes : describes 5 (lifted 3 [1;1;2;1] square_cone) bent_facets.
Proof.
  exists (fun i => zpoint (nth i bent_normals [])). cbv zeta.
  assert (F : forall i, (i < length bent_facets)%nat /\ fst (nth i bent_facets (true, [])) = false -> (1 <= i < 7)%nat) by (intros i [Hi Fi]; split; [destruct i; [discriminate Fi|lia]|cbn in Hi; lia]).
  split; [|split; [|split; [|split; [|split; [|split]]]]].
  - intros i g Hi Fi. few i; try discriminate Fi; [|cbn in Hi; lia]. revert g. each_gen ltac:(reflexivity).
  - intros i g Fi. apply F in Fi. revert g. few i; try lia; each_gen ltac:(vm_compute; discriminate).
  - intros x E H. assert (E0 : (x 0%nat == 0)%Q).
    { pose proof (E 0%nat ltac:(cbn; lia) eq_refl) as X. cbn [sumq] in X. unfold zpoint in X. cbn [nth bent_normals] in X. unfold inject_Z in X. lra. }
    pose proof (H 1%nat ltac:(split; [cbn; lia|reflexivity])) as H1. pose proof (H 2%nat ltac:(split; [cbn; lia|reflexivity])) as H2. pose proof (H 3%nat ltac:(split; [cbn; lia|reflexivity])) as H3.
    pose proof (H 4%nat ltac:(split; [cbn; lia|reflexivity])) as H4. pose proof (H 5%nat ltac:(split; [cbn; lia|reflexivity])) as H5. pose proof (H 6%nat ltac:(split; [cbn; lia|reflexivity])) as H6. clear E H.
    cbn [sumq] in *. unfold zpoint in *. cbn [nth bent_normals] in *. unfold inject_Z in *.
    set (t := x 1%nat) in *. set (u := x 2%nat) in *. set (v := x 3%nat) in *. set (w := x 4%nat) in *.
    destruct (Qlt_le_dec w (u + v)) as [C|C].
    + apply gen_iff. exists [((w - v)%Q, [0;1;1;0;1]); ((u + v - w)%Q, [0;2;1;1;1]); ((w - u)%Q, [0;1;0;1;1]); ((t - u - v)%Q, [0;1;0;0;0])]. split.
      * intros p [<-|[<-|[<-|[<-|[]]]]]; cbn [fst snd]; (split; [lra|cbn; tauto]).
      * intros i Hi. do 5 (destruct i as [|i]; [cbn [mix fst snd]; unfold zpoint; cbn [nth]; unfold inject_Z; try fold t; try fold u; try fold v; try fold w; lra|]). lia.
    + apply gen_iff. exists [((w - u - v)%Q, [0;1;0;0;1]); (u, [0;1;1;0;1]); (v, [0;1;0;1;1]); ((t - w)%Q, [0;1;0;0;0])]. split.
      * intros p [<-|[<-|[<-|[<-|[]]]]]; cbn [fst snd]; (split; [lra|cbn; tauto]).
      * intros i Hi. do 5 (destruct i as [|i]; [cbn [mix fst snd]; unfold zpoint; cbn [nth]; unfold inject_Z; try fold t; try fold u; try fold v; try fold w; lra|]). lia.
  - intros i Hi. few i; try reflexivity. cbn in Hi. lia.
  - intros i j Fi Hj. apply F in Fi. few i; try lia; do 5 (destruct j as [|j]; [split; intros A; vm_compute in A |- *; try reflexivity; discriminate A|]); cbn in Hj; lia.
  - intros i y Fi H. apply F in Fi.
    assert (G : forall g, In g (lifted 3 [1;1;2;1] square_cone) -> (pairing 5 (zpoint (nth i bent_normals [])) g == 0)%Q -> (pairing 5 y g == 0)%Q) by exact H. clear H.
    exists (match i with 1%nat | 2%nat => y 1%nat | 3%nat | 4%nat => y 1%nat * 2 + y 2%nat + y 3%nat + y 4%nat | _ => y 1%nat + y 4%nat end)%Q.
    assert (G0 := G [0;1;0;0;1] ltac:(cbn; tauto)). assert (G1 := G [0;1;1;0;1] ltac:(cbn; tauto)). assert (G2 := G [0;2;1;1;1] ltac:(cbn; tauto)). assert (G3 := G [0;1;0;1;1] ltac:(cbn; tauto)). assert (G4 := G [0;1;0;0;0] ltac:(cbn; tauto)). clear G.
    few i; try lia; repeat (match goal with X : (pairing 5 _ _ == 0)%Q -> _ |- _ => first [specialize (X eq_refl)|clear X] end);
    each_gen ltac:(unfold pairing in *; cbn [sumq] in *; unfold zpoint in *; cbn [nth bent_normals] in *; unfold inject_Z in *; lra).
  - intros i j Fi Fj (c & Hc & H). apply F in Fi. apply F in Fj.
    assert (G0 := H [0;1;0;0;1] ltac:(cbn; tauto)). assert (G1 := H [0;1;1;0;1] ltac:(cbn; tauto)). assert (G2 := H [0;2;1;1;1] ltac:(cbn; tauto)). assert (G3 := H [0;1;0;1;1] ltac:(cbn; tauto)). assert (G4 := H [0;1;0;0;0] ltac:(cbn; tauto)). clear H.
    few i; try lia; few j; try lia; try reflexivity; exfalso; unfold pairing in *; cbn [sumq] in *; unfold zpoint in *; cbn [nth bent_normals] in *; unfold inject_Z in *; lra.
Qed.
Definition flat_cone (back : bool) : list (list Z) := if back then rev square_cone else square_cone.
Lemma flat_describes back : describes 5 (lifted 3 [1;1;1;1] (flat_cone back)) (flat_facets back).
Proof.
  exists (fun i => zpoint (nth i flat_normals [])). cbv zeta.
  assert (Len : length (flat_facets back) = 6%nat) by reflexivity.
  assert (F : forall i, (i < length (flat_facets back))%nat /\ fst (nth i (flat_facets back) (true, [])) = false -> (1 <= i < 6)%nat) by (intros i [Hi Fi]; split; [destruct i; [discriminate Fi|lia]|cbn in Hi; lia]).
  assert (In0 : forall g, In g (lifted 3 [1;1;1;1] (flat_cone back)) <-> In g [[0;1;0;0;1];[0;1;1;0;1];[0;1;1;1;1];[0;1;0;1;1];[0;1;0;0;0]]) by (intros g; destruct back; cbn; tauto).
  split; [|split; [|split; [|split; [|split; [|split]]]]].
  - intros i g Hi Fi. rewrite In0. few i; try (destruct back; discriminate Fi); try (cbn in Hi; lia). revert g. each_gen ltac:(reflexivity).
  - intros i g Fi. apply F in Fi. rewrite In0. revert g. few i; try lia; each_gen ltac:(vm_compute; discriminate).
  - intros x E H. assert (E0 : (x 0%nat == 0)%Q).
    { pose proof (E 0%nat ltac:(cbn; lia) eq_refl) as X. cbn [sumq] in X. unfold zpoint in X. cbn [nth flat_normals] in X. unfold inject_Z in X. lra. }
    pose proof (H 1%nat ltac:(split; [cbn; lia|reflexivity])) as H1. pose proof (H 2%nat ltac:(split; [cbn; lia|reflexivity])) as H2. pose proof (H 3%nat ltac:(split; [cbn; lia|reflexivity])) as H3.
    pose proof (H 4%nat ltac:(split; [cbn; lia|reflexivity])) as H4. pose proof (H 5%nat ltac:(split; [cbn; lia|reflexivity])) as H5. clear E H.
    cbn [sumq] in *. unfold zpoint in *. cbn [nth flat_normals] in *. unfold inject_Z in *.
    set (t := x 1%nat) in *. set (u := x 2%nat) in *. set (v := x 3%nat) in *. set (w := x 4%nat) in *. apply gen_iff.
    destruct (Qlt_le_dec w (u + v)) as [C|C].
    + exists [((w - v)%Q, [0;1;1;0;1]); ((u + v - w)%Q, [0;1;1;1;1]); ((w - u)%Q, [0;1;0;1;1]); ((t - w)%Q, [0;1;0;0;0])]. split.
      * intros p [<-|[<-|[<-|[<-|[]]]]]; cbn [fst snd]; (split; [lra|apply In0; cbn; tauto]).
      * intros i Hi. do 5 (destruct i as [|i]; [cbn [mix fst snd]; unfold zpoint; cbn [nth]; unfold inject_Z; try fold t; try fold u; try fold v; try fold w; lra|]). lia.
    + exists [((w - u - v)%Q, [0;1;0;0;1]); (u, [0;1;1;0;1]); (v, [0;1;0;1;1]); ((t - w)%Q, [0;1;0;0;0])]. split.
      * intros p [<-|[<-|[<-|[<-|[]]]]]; cbn [fst snd]; (split; [lra|apply In0; cbn; tauto]).
      * intros i Hi. do 5 (destruct i as [|i]; [cbn [mix fst snd]; unfold zpoint; cbn [nth]; unfold inject_Z; try fold t; try fold u; try fold v; try fold w; lra|]). lia.
  - intros i Hi. rewrite Len in Hi. destruct back; few i; try reflexivity; lia.
  - intros i j Fi Hj. apply F in Fi. replace (length (lifted 3 [1;1;1;1] (flat_cone back))) with 5%nat in Hj by (destruct back; reflexivity).
    destruct back; few i; try lia; destruct j as [|[|[|[|[|j]]]]]; try lia; (split; intros A; vm_compute in A |- *; try reflexivity; discriminate A).
  - intros i y Fi H. apply F in Fi.
    assert (G : forall g, In g (lifted 3 [1;1;1;1] (flat_cone back)) -> (pairing 5 (zpoint (nth i flat_normals [])) g == 0)%Q -> (pairing 5 y g == 0)%Q) by exact H. clear H.
    exists (match i with 1%nat => y 1%nat | 2%nat | 3%nat => y 1%nat + y 2%nat + y 3%nat + y 4%nat | _ => y 1%nat + y 4%nat end)%Q.
    assert (G0 := G [0;1;0;0;1] ltac:(apply In0; cbn; tauto)). assert (G1 := G [0;1;1;0;1] ltac:(apply In0; cbn; tauto)). assert (G2 := G [0;1;1;1;1] ltac:(apply In0; cbn; tauto)). assert (G3 := G [0;1;0;1;1] ltac:(apply In0; cbn; tauto)). assert (G4 := G [0;1;0;0;0] ltac:(apply In0; cbn; tauto)). clear G.
    intros g. rewrite In0. revert g. few i; try lia; repeat (match goal with X : (pairing 5 _ _ == 0)%Q -> _ |- _ => first [specialize (X eq_refl)|clear X] end);
    each_gen ltac:(unfold pairing in *; cbn [sumq] in *; unfold zpoint in *; cbn [nth flat_normals] in *; unfold inject_Z in *; lra).
  - intros i j Fi Fj (c & Hc & H). apply F in Fi. apply F in Fj.
    assert (G0 := H [0;1;0;0;1] ltac:(apply In0; cbn; tauto)). assert (G1 := H [0;1;1;0;1] ltac:(apply In0; cbn; tauto)). assert (G2 := H [0;1;1;1;1] ltac:(apply In0; cbn; tauto)). assert (G3 := H [0;1;0;1;1] ltac:(apply In0; cbn; tauto)). assert (G4 := H [0;1;0;0;0] ltac:(apply In0; cbn; tauto)). clear H.
    few i; try lia; few j; try lia; try reflexivity; exfalso; unfold pairing in *; cbn [sumq] in *; unfold zpoint in *; cbn [nth flat_normals] in *; unfold inject_Z in *; lra.
Qed.
Lemma sample_dd_contract : cddlib_contract sample_dd.
Proof.
  assert (Dim : forall m hs V, length hs = length V -> Forall (fun r => length r = 3%nat) V -> Forall (fun g => length g = m) (lifted 3 hs V) -> m = 5%nat).
  { intros m hs V L F A. pose proof (lifted_dim 3 hs V L F) as B. rewrite Forall_forall in A, B. assert (I : In (nth (length V) (lifted 3 hs V) []) (lifted 3 hs V)) by (apply nth_In; rewrite lifted_length by exact L; lia). rewrite <- (A _ I), (B _ I). reflexivity. }
  intros m gens fs A. unfold sample_dd, matrix_eqb.
  destruct (list_eq_dec (list_eq_dec Z.eq_dec) gens (lifted 3 [1;1;2;1] square_cone)) as [->|_].
  - intros E. injection E as <-. rewrite (Dim m [1;1;2;1] square_cone eq_refl ltac:(repeat constructor) A). apply bent_describes.
  - destruct (list_eq_dec (list_eq_dec Z.eq_dec) gens (lifted 3 [1;1;1;1] square_cone)) as [->|_].
    + intros E. injection E as <-. rewrite (Dim m [1;1;1;1] square_cone eq_refl ltac:(repeat constructor) A). apply (flat_describes false).
    + destruct (list_eq_dec (list_eq_dec Z.eq_dec) gens (lifted 3 [1;1;1;1] (rev square_cone))) as [->|_]; [|discriminate].
      intros E. injection E as <-. rewrite (Dim m [1;1;1;1] (rev square_cone) eq_refl ltac:(repeat constructor) A). apply (flat_describes true).
Qed.
Lemma square_spans back : spans 3 (flat_cone back).
Proof.
  intros y H. assert (In0 : forall g, In g (flat_cone back) <-> In g square_cone) by (intros g; destruct back; cbn; tauto).
  pose proof (H [0;0;1] ltac:(apply In0; cbn; tauto)) as A. pose proof (H [1;0;1] ltac:(apply In0; cbn; tauto)) as B. pose proof (H [0;1;1] ltac:(apply In0; cbn; tauto)) as C.
  unfold pairing in *. cbn [sumq] in *. unfold zpoint in *. cbn [nth] in *. unfold inject_Z in *. intros [|[|[|k]]] Hk; [lra|lra|lra|lia].
Qed.
(** rand() giving the heights 1, 1, 2, 1 with --triangulation-max-height=2. *)
Definition sample_rand (i : nat) : Z := if (i =? 2)%nat then 2 ^ 30 else 0.
Example square_triangulated :
  (cddlib_contract sample_dd /\ double_rounding (fun p => p) /\ 1 <= 2 <= INT_MAX /\ (forall i, 0 <= sample_rand i < 2 ^ 31) /\ Forall (fun r => length r = 3%nat) square_cone /\ spans 3 square_cone) /\
  draw_heights (fun p => p) 2 RandomHeights square_cone sample_rand 0 = Ok ([1;1;2;1], 4%nat) /\
  triangulate_cone sample_dd (fun p => p) 2 false true 3 sample_rand 1 RandomHeights square_cone 0 =
    Ok ([[[0;1;1];[1;1;1];[1;0;1]]; [[0;1;1];[1;0;1];[0;0;1]]], 4%nat).
Proof.
  split; [|split; [vm_compute; reflexivity|vm_compute; reflexivity]]. split; [apply sample_dd_contract|]. split; [exact exact_is_rounding|]. split; [unfold INT_MAX; lia|]. split; [intros i; unfold sample_rand; destruct (i =? 2)%nat; lia|]. split; [repeat constructor|exact (square_spans false)].
Qed.

(** The recursion need not end: with --triangulation-max-height=1 all heights are 1, and the
    cone over a square is cut into itself again and again, whatever rand() returns. *)
Theorem triangulation_endless_refuted :
  exists dd n V, cddlib_contract dd /\ Forall (fun r => length r = n) V /\ spans n V /\
  forall rnd rs, double_rounding rnd -> (forall i, 0 <= rs i < 2 ^ 31) ->
  forall fulldim fuel k, triangulate_cone dd rnd 1 false fulldim n rs fuel RandomHeights V k = Err OutOfFuel.
Proof.
  exists sample_dd, 3%nat, square_cone. split; [exact sample_dd_contract|]. split; [repeat constructor|]. split; [exact (square_spans false)|]. intros rnd rs HR RS fd fuel k.
  assert (H1 : forall i, random_int rnd 1 1 (rs i) = Ok 1).
  { intros i. destruct (random_int_range rnd 1 1 (rs i) HR (RS i) eq_refl eq_refl ltac:(lia) ltac:(unfold INT_MAX; lia)) as (v & E & B). rewrite E. f_equal. lia. }
  unfold triangulate_cone. replace (fd && (3 =? length square_cone)%nat) with false by (destruct fd; reflexivity).
  assert (G : forall fuel back k, triangulate_cddlib sample_dd rnd 1 false 3 rs fuel RandomHeights (flat_cone back) k = Err OutOfFuel); [|specialize (G fuel false k); cbn [flat_cone] in G; rewrite G; reflexivity].
  clear fuel k. induction fuel as [|fuel IH]; intros back k; [reflexivity|]. cbn [triangulate_cddlib].
  assert (Eh : draw_heights rnd 1 RandomHeights (flat_cone back) rs k = Ok ([1;1;1;1], S (S (S (S k))))) by (destruct back; cbn [flat_cone rev square_cone app draw_heights height]; repeat (rewrite H1; cbn [bind]); reflexivity).
  rewrite Eh. cbn [bind]. assert (Ed : sample_dd (lifted 3 [1;1;1;1] (flat_cone back)) = Some (flat_facets back)) by (destruct back; vm_compute; reflexivity). rewrite Ed.
  assert (W : walk (triangulate_cddlib sample_dd rnd 1 false 3 rs fuel RandomHeights) false 3 (flat_cone back) (flat_facets back) (S (S (S (S k)))) = Err OutOfFuel).
  { cbn [flat_facets walk]. replace (nth (length (flat_cone back)) [true;true;true;true;false] false) with false by (destruct back; reflexivity). cbn [set_card filter length Nat.ltb Nat.leb negb andb].
    replace (cone_from_ray_set (flat_cone back) [true;true;true;true;false]) with (flat_cone (negb back)) by (destruct back; reflexivity). rewrite (IH (negb back)). reflexivity. }
  replace (existsb (fun r => (length r <? 3)%nat) (flat_cone back)) with false by (destruct back; reflexivity).
  replace (existsb (fun f => negb (length (snd f) =? length (flat_cone back) + 1)%nat) (flat_facets back)) with false by (destruct back; reflexivity). exact W.
Qed.
Print Assumptions triangulation_endless_refuted.
