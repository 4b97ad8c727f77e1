(** C93: hilbert-from-rays.  Specification: NormalizeSpec.v. *)
From Coq Require Import QArith Qround Lqa.
From Verif Require Import Common ZMat Hermite HermiteProofs Det DetProofs RatVec RatVecSpec RatVecProofs Util UtilProofs SmithSpec Smith SmithProofs2 Piped PipedSpec PipedProofs PipedProofs2 PipedProofs3 PipedProofs4 P_Piped ConeSpec CountSpec Triang TriangSpec P_Triang Normalize NormalizeSpec NormalizeProofs NormalizeProofs2.
Open Scope Z_scope.

(** If the program comes to its end, the vectors it has written are pairwise different integer points of the cone, and every integer point of the
    cone is a sum of given rays and written vectors. *)
Theorem hilbert_candidates_generate : forall xg n V, xgcd_contract xg -> (0 < n)%nat -> Forall (fun r => length r = n) V -> exists enough, forall P,
  z_xg P = xg -> z_dim P = n -> (enough <= z_fuel P)%nat -> zsolve_contract n V (z_zsolve P) -> cover_contract n V (z_triang P) ->
  forall fuel written, hilbert_from_rays fuel P V = Ok written ->
  NoDup written /\ (forall v, In v written -> cone_point n V v) /\ forall x, cone_point n V x -> sum_of n (V ++ written) x.
Proof.
  intros xg n V XG Hn FV. destruct (enough_fuel xg n V XG Hn) as (F & HF). exists F. intros P <- <- Hf HZ HT fuel written E. exact (hilbert_ok P V Hn FV (HF _ Hf) HZ HT fuel written E).
Qed.
Print Assumptions hilbert_candidates_generate.

(** A subdivision in the sense of C78 is what the triangulation is asked for. *)
Theorem subdivisions_cover : forall n V triang, Forall (fun r => length r = n) V ->
  (forall k t cs, incl t V -> triang k t = Ok cs -> subdivides n t cs) -> cover_contract n V triang.
Proof.
  intros n V triang FV H k t cs I0 E. destruct (H k t cs I0 E) as (A & B & _). split; [intros c Hc; now apply A|]. intros x (L & G). apply B in G as (c & Hc & G). exists c. split; [exact Hc|now split].
Qed.
Print Assumptions subdivisions_cover.

Definition fits (x : list Z) : Prop := Forall (fun z => Z.abs z <= INT_MAX) x.
Lemma mapM_ok {A B} (f : A -> outcome B) (g : A -> B) l : (forall a, In a l -> f a = Ok (g a)) -> mapM f l = Ok (map g l).
Proof. induction l as [|a l IH]; intros H; [reflexivity|]. cbn [mapM map]. rewrite (H a (or_introl eq_refl)). cbn [bind]. rewrite IH by (intros; apply H; now right). reflexivity. Qed.
Lemma fits_ok x : fits x -> mapM zz_to_int x = Ok x.
Proof.
  intros F. rewrite (mapM_ok zz_to_int (fun z => z)), map_id; [reflexivity|]. intros z Hz. unfold fits in F. rewrite Forall_forall in F. specialize (F z Hz). rewrite zz_to_int_ok. destruct (Z.ltb_spec INT_MAX (Z.abs z)); [lia|reflexivity].
Qed.
(** It does, without further subdivision, if no part of the initial triangulation has too many facets, its simplicial parts are independent with points that
    fit into machine integers, and zsolve answers in time. *)
Theorem hilbert_returns : forall xg n V, xgcd_contract xg -> (0 < n)%nat -> Forall (fun r => length r = n) V -> exists enough, forall P,
  z_xg P = xg -> z_dim P = n -> (enough <= z_fuel P)%nat ->
  forall parts, (if z_initial P then z_triang P 0 V else Ok [V]) = Ok parts ->
  (forall t, In t parts -> t <> [] /\ incl t V) ->
  (forall t, In t parts -> length t <> n -> z_facets P t < z_max_facets P) ->
  (forall t, In t parts -> length t = n -> lin_indep n t /\ Z.abs (det n (ent t)) <= int_max /\ (forall p, in_parallelepiped n (rv_zero n) t p -> fits p) /\ Z.of_nat n < z_max_facets P) ->
  (forall k t, In t parts -> exists homs, z_zsolve P k t = Ok (Some homs) /\ Z.of_nat n - (if (length t =? n)%nat then 0 else z_equations P t) <= Z.of_nat (length homs)) ->
  exists written, forall fuel, (1 <= fuel)%nat -> hilbert_from_rays fuel P V = Ok written.
Proof.
  intros xg n V XG Hn FV. destruct (enough_fuel xg n V XG Hn) as (F & HF). exists F. intros P EX EN Hf parts EP HI HN HS HZ. specialize (HF _ Hf).
  assert (ONE : forall t st, In t parts -> exists st', forall f, handle (S f) P t st = Ok st').
  { intros t st Ht. destruct (HI t Ht) as (NE & IV). cbn [handle]. rewrite EN. destruct t as [|r t0]; [contradiction|]. set (t := r :: t0) in *.
    destruct ((length t =? n)%nat && unimodular n t)%bool; [now exists st|].
    assert (ZS : exists homs, z_zsolve P (snd st) t = Ok (Some homs) /\ Z.of_nat n - (if (length t =? n)%nat then 0 else z_equations P t) <= Z.of_nat (length homs)) by (apply HZ, Ht). destruct ZS as (homs & EZ & LH).
    unfold dualized. rewrite EN. destruct (length t =? n)%nat eqn:EL.
    - apply Nat.eqb_eq in EL. destruct (HS t Ht EL) as (LI & DB & FP & MF). assert (FT : Forall (fun r => length r = n) t) by (apply Forall_forall; intros v Hv; rewrite Forall_forall in FV; auto).
      destruct (facets_dual_to_rays n t (conj EL FT) LI) as (c & EC & _ & (NF & _) & ED & _). rewrite EC. cbn [bind]. destruct (Z.abs (s_det c) =? 1); [now exists st|]. cbn [andb]. destruct (Z.abs (s_det c) <? z_max_det P).
      + unfold enumerate. rewrite EN, EX. destruct (HF t c IV (conj EL FT) EC) as [(B & _)|(ps & EPS & HPS & _)]. { destruct (ok_indep n t c EC) as (_ & DD). rewrite DD in B. lia. }
        rewrite EPS. cbn [bind]. rewrite (mapM_ok (mapM zz_to_int) (fun p => p)), map_id; [|intros p Hp; apply fits_ok, FP, HPS, Hp]. cbn [bind]. eexists. reflexivity.
      + destruct NF as (NF & _). rewrite NF. replace (Z.of_nat n <? z_max_facets P) with true by (symmetry; now apply Z.ltb_lt). rewrite EZ. cbn [bind]. replace (Z.of_nat (length homs) <? Z.of_nat n - 0) with false by (symmetry; apply Z.ltb_ge; lia). eexists. reflexivity.
    - apply Nat.eqb_neq in EL. cbn [bind s_det]. change (Z.abs 0 =? 1) with false. cbn [andb]. specialize (HN t Ht EL). replace (z_facets P t <? z_max_facets P) with true by (symmetry; now apply Z.ltb_lt). rewrite EZ. cbn [bind].
      replace (Z.of_nat (length homs) <? Z.of_nat n - z_equations P t) with false by (symmetry; apply Z.ltb_ge; lia). eexists. reflexivity. }
  unfold hilbert_from_rays. rewrite EP. cbn [bind].
  assert (ALL : forall cs st, incl cs parts -> exists st', forall f, handle_all (S f) P cs st = Ok st').
  { induction cs as [|c cs IH]; intros st HC; [now exists st|]. destruct (ONE c st (HC c (or_introl eq_refl))) as (s1 & E1). destruct (IH s1 (fun d Hd => HC d (or_intror Hd))) as (s2 & E2). exists s2. intros f. cbn [handle_all]. rewrite E1. cbn [bind]. apply E2. }
  destruct (ALL parts ([], 1%nat) (incl_refl _)) as (st & ES). exists (fst st). intros [|f] Hf2; [lia|]. rewrite ES. reflexivity.
Qed.
Print Assumptions hilbert_returns.

(** It need not come to an end: a simplicial cone with a determinant not below the limit and not less facets than the limit is triangulated again, and
    its only triangulation is the cone itself. *)
Theorem endless_subdivision_refuted : forall P t, z_initial P = false -> (0 < z_dim P)%nat -> n_vectors (z_dim P) t -> 1 < Z.abs (det (z_dim P) (ent t)) -> z_max_det P <= Z.abs (det (z_dim P) (ent t)) -> z_max_facets P <= Z.of_nat (z_dim P) ->
  (forall k, z_triang P k t = Ok [t]) -> forall fuel, hilbert_from_rays fuel P t = Err OutOfFuel.
Proof.
  intros P t EI Hn (L & FT) D1 D2 MF HT fuel. unfold hilbert_from_rays. rewrite EI. cbn [bind handle_all].
  assert (H : forall f st, handle f P t st = Err OutOfFuel); [|now rewrite H]. clear fuel. induction f as [|f IH]; intros st; [reflexivity|]. cbn [handle]. destruct t as [|r t0]; [cbn in L; lia|]. set (t := r :: t0) in *.
  destruct (facets_dual_to_rays (z_dim P) t (conj L FT) ltac:(apply det_indep; lia)) as (c & EC & _ & (NF & _) & _). destruct (ok_indep _ _ _ EC) as (_ & DD). unfold unimodular, dualized. rewrite L, Nat.eqb_refl, EC. cbn [andb bind]. rewrite DD.
  replace (Z.abs (det (z_dim P) (ent t)) =? 1) with false by (symmetry; apply Z.eqb_neq; lia). replace (Z.abs (det (z_dim P) (ent t)) <? z_max_det P) with false by (symmetry; apply Z.ltb_ge; lia).
  destruct NF as (NF & _). rewrite NF. replace (Z.of_nat (z_dim P) <? z_max_facets P) with false by (symmetry; now apply Z.ltb_ge). rewrite HT. cbn [bind]. now rewrite IH.
Qed.
Print Assumptions endless_subdivision_refuted.

(** n rays in n variables that are dependent, such as the four rays of a cone over a square in a three-dimensional subspace of four-space, are taken to be simplicial: abort. *)
Theorem dependent_rays_abort_refuted : forall P t fuel, z_initial P = false -> (0 < z_dim P)%nat -> n_vectors (z_dim P) t -> det (z_dim P) (ent t) = 0 -> hilbert_from_rays (S fuel) P t = Err AssertFail.
Proof.
  intros P t fuel EI Hn (L & FT) D0. unfold hilbert_from_rays. rewrite EI. cbn [bind handle_all handle]. destruct t as [|r t0]; [cbn in L; lia|]. set (t := r :: t0) in *.
  unfold unimodular, dualized. rewrite L, Nat.eqb_refl, D0. cbn [andb]. change (Z.abs 0 =? 1) with false. cbv iota. unfold det_and_facets. rewrite L, Nat.eqb_refl. cbn [negb]. cbv zeta. rewrite D0. reflexivity.
Qed.
Print Assumptions dependent_rays_abort_refuted.

(** Concrete runs.  zsolve by a table for one cone, no triangulation. *)
Definition run (n : nat) (max_facets max_det : Z) (homs : list (list Z)) : nparams :=
  mkNparams n max_facets max_det false 60 xgcd_euclid (fun t => Z.of_nat (length t)) (fun _ => 0) (fun _ _ => Ok (Some homs)) (fun _ t => Ok [t]).

(** The rays are not written: for a unimodular cone the file stays empty. *)
Theorem rays_not_written_refuted : exists P V written, hilbert_from_rays 3 P V = Ok written /\ exists x, cone_point (z_dim P) V x /\ ~ sum_of (z_dim P) written x.
Proof.
  exists (run 2 1000 1000 []), [[1;0];[0;1]], []. split; [vm_compute; reflexivity|]. exists [1;0]. split.
  - apply rays_in_cone; [now left|reflexivity].
  - intros S0. inversion S0 as [x L Z0|x g y S1 Hg]; subst; [specialize (Z0 0%nat ltac:(cbn; lia)); discriminate Z0|destruct Hg].
Qed.
Print Assumptions rays_not_written_refuted.
(** The zero vector is written, and vectors that are sums of others. *)
Theorem not_a_hilbert_basis_refuted : hilbert_from_rays 3 (run 1 1000 1000 []) [[2]] = Ok [[0];[1]] /\
  match hilbert_from_rays 3 (run 2 1000 1000 []) [[1;0];[1;3]] with Ok w => In [0;0] w /\ In [1;1] w /\ In [1;2] w /\ length w = 3%nat | Err _ => False end /\
  match hilbert_from_rays 3 (run 2 1000 1000 []) [[1;2];[2;1]] with Ok w => In [1;1] w /\ In [2;2] w | Err _ => False end.
Proof. split; [vm_compute; reflexivity|]. split; vm_compute; auto 10. Qed.
Print Assumptions not_a_hilbert_basis_refuted.
Example sum_of_itself : sum_of 2 [[1;1]] [2;2].
Proof. apply one_more with (x := [1;1]) (g := [1;1]); [apply one_more with (x := [0;0]) (g := [1;1]); [apply no_summand; [reflexivity|]|..]|..]; try reflexivity; try (now left); intros [|[|i]] Hi; try reflexivity; lia. Qed.

(** Non-vacuity: a cone with three rays in the plane, for which zsolve is asked. *)
Definition three_rays : list (list Z) := [[1;0];[1;1];[1;2]].
Definition plane_zsolve (k : nat) (t : list (list Z)) : outcome (option (list (list Z))) := if list_eq_dec (list_eq_dec Z.eq_dec) t three_rays then Ok (Some three_rays) else Err Exited.
Definition plane_run : nparams := mkNparams 2 1000 1000 false 60 xgcd_euclid (fun _ => 2) (fun _ => 0) plane_zsolve (fun k t => Ok [t]).

Lemma plane_contracts : zsolve_contract 2 three_rays (z_zsolve plane_run) /\ cover_contract 2 three_rays (z_triang plane_run).
Proof.
  split.
  - intros k t homs I0 E. cbn in E. unfold plane_zsolve in E. destruct (list_eq_dec (list_eq_dec Z.eq_dec) t three_rays) as [->|]; [|discriminate E]. injection E as <-. split.
    + intros h Hh. apply rays_in_cone; [exact Hh|]. destruct Hh as [<-|[<-|[<-|[]]]]; reflexivity.
    + intros x (L & a & A0 & A). destruct x as [|x0 [|x1 [|]]]; try discriminate L. pose proof (A 0%nat ltac:(lia)) as E0. pose proof (A 1%nat ltac:(lia)) as E1. pose proof (A0 0%nat ltac:(cbn; lia)) as P0. pose proof (A0 1%nat ltac:(cbn; lia)) as P1. pose proof (A0 2%nat ltac:(cbn; lia)) as P2.
      unfold zpoint, three_rays, vat in E0, E1. cbn [length nth sumq] in E0, E1. change (inject_Z 0) with 0%Q in *. change (inject_Z 1) with 1%Q in *. change (inject_Z 2) with 2%Q in *.
      assert (X1 : 0 <= x1) by (rewrite Zle_Qle; change (inject_Z 0) with 0%Q; lra).
      assert (X2 : x1 <= 2 * x0) by (rewrite Zle_Qle, inject_Z_mult; change (inject_Z 2) with 2%Q; lra).
      apply (sum_combination 2 three_rays three_rays (fun k => match k with O => x0 - x1 / 2 - x1 mod 2 | S O => x1 mod 2 | _ => x1 / 2 end) [0;0] [x0;x1]).
      * apply incl_refl.
      * pose proof (Z.div_mod x1 2 ltac:(lia)). pose proof (Z.mod_pos_bound x1 2 ltac:(lia)). intros [|[|[|k']]] Hk; cbv iota beta; lia.
      * apply no_summand; [reflexivity|]. intros [|[|i]] Hi; try reflexivity; lia.
      * reflexivity.
      * pose proof (Z.div_mod x1 2 ltac:(lia)). intros [|[|i]] Hi; [| |lia]; unfold three_rays, vat; cbn [length nth sumz]; lia.
  - intros k t cs I0 E. cbn in E. injection E as <-. split; [intros c [<-|[]]; apply incl_refl|]. intros x Hx. exists t. split; [now left|exact Hx].
Qed.
Example plane_written : hilbert_from_rays 2 plane_run three_rays = Ok three_rays /\ xgcd_contract (z_xg plane_run).
Proof. split; [vm_compute; reflexivity|exact xgcd_euclid_contract]. Qed.
Example plane_returns : (forall t, In t [three_rays] -> t <> [] /\ incl t three_rays) /\ (forall t, In t [three_rays] -> length t <> 2%nat -> z_facets plane_run t < z_max_facets plane_run) /\
  (forall k t, In t [three_rays] -> exists homs, z_zsolve plane_run k t = Ok (Some homs) /\ 2 - (if (length t =? 2)%nat then 0 else z_equations plane_run t) <= Z.of_nat (length homs)).
Proof.
  split; [intros t [<-|[]]; split; [discriminate|apply incl_refl]|]. split; [intros t [<-|[]] _; cbn; lia|]. intros k t [<-|[]]. exists three_rays. split; [reflexivity|cbn; lia].
Qed.
(** The simplicial case, with the limits of the program: 2 x 2 with determinant 3, and the loop with limits that are too low. *)
Example simplicial_run : hilbert_from_rays 1 (run 2 1000 1000 []) [[1;0];[1;3]] = Ok [[0;0];[1;2];[1;1]] /\ hilbert_from_rays 100 (run 2 2 3 []) [[1;0];[1;3]] = Err OutOfFuel /\
  hilbert_from_rays 100 (run 4 1000 1000 []) [[1;0;0;0];[1;1;0;0];[1;0;1;0];[1;1;1;0]] = Err AssertFail.
Proof. vm_compute. auto. Qed.
(** Every subset of the plane's parts once more: a time limit, then two simplicial cones. *)
Definition limited_run : nparams := mkNparams 2 1000 1000 true 60 xgcd_euclid (fun _ => 2) (fun _ => 0) (fun _ _ => Ok None) (fun k t => Ok (if (k =? 0)%nat then [t] else [[[1;0];[1;1]];[[1;1];[1;3]]])).
Example limited : hilbert_from_rays 2 limited_run [[1;0];[1;1];[1;3]] = Ok [[0;0];[1;2]].
Proof. vm_compute. reflexivity. Qed.
