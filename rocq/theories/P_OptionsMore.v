(** C81, continued: the defaults, the options for experts and what they imply, and values that
    do not exist. *)
From Coq Require Import String.
From Verif Require Import Common Rational Text TextProofs LatteText Options OptionsSpec OptionsProofs P_Options.
Open Scope Z_scope.

(** The options that count reads but its help leaves out. *)
Inductive expert_help (cones_in : text -> outcome Z) : text -> list (field * val) -> Prop :=
| e_help a l : help a l -> expert_help cones_in a l
| e_avoid : expert_help cones_in (lit "--avoid-singularities") [(ShortVector, VE "SubspaceAvoidingLLL")]
| e_approximate : expert_help cones_in (lit "--approximate") [(Approximate, VB true)]
| e_factor t : expert_help cones_in (lit "--sampling-factor=" ++ t) [(SamplingFactor, VT t)]
| e_samples n : - 2 ^ 63 <= n < 2 ^ 63 -> expert_help cones_in (lit "--num-samples=" ++ show_Z n) [(NumSamples, VN n)]
| e_seed n : int n -> expert_help cones_in (lit "--random-seed=" ++ show_Z n) [(Seed, VN n)]
| e_special f : cones_in f = Ok 1 -> expert_help cones_in (lit "--special-cone=" ++ f) [(SpecialCone, VT f)]
| e_subdivision : expert_help cones_in (lit "--nonsimplicial-subdivision") [(Subdivision, VB true)]
| e_debug : expert_help cones_in (lit "--debug-triangulation") [(DebugTriangulation, VB true)]
| e_tri_cdd : expert_help cones_in (lit "--triangulation=cdd") [(Triangulation, VE "RegularTriangulationWithCdd"); (TriangulationGiven, VB true)]
| e_tri_delone : expert_help cones_in (lit "--triangulation=delone") [(Triangulation, VE "DeloneTriangulationWithCddlib"); (TriangulationGiven, VB true)]
| e_tri_delaunay : expert_help cones_in (lit "--triangulation=delaunay") [(Triangulation, VE "DeloneTriangulationWithCddlib"); (TriangulationGiven, VB true)]
| e_tri_boundary : expert_help cones_in (lit "--triangulation=boundary") [(Triangulation, VE "SubspaceAvoidingBoundaryTriangulation"); (TriangulationGiven, VB true)]
| e_tri_special : expert_help cones_in (lit "--triangulation=special") [(Triangulation, VE "SubspaceAvoidingSpecialTriangulation"); (TriangulationGiven, VB true)]
(* the words of earlier versions *)
| e_nodecom : expert_help cones_in (lit "nodecom") [(MaxDet, VN 0)]
| e_uni : expert_help cones_in (lit "uni") [(AssumeUnimodular, VB true)]
| e_file : expert_help cones_in (lit "file") [(MemorySave, VB false)]
| e_memsave : expert_help cones_in (lit "memsave") [(MemorySave, VB true)]
| e_printcones : expert_help cones_in (lit "printcones") [(PrintCones, VB true)]
| e_rem : expert_help cones_in (lit "rem") [(RemoveFiles, VB false); (MemorySave, VB false)]
| e_trisave : expert_help cones_in (lit "trisave") [(SaveTri, VB true)]
| e_triload : expert_help cones_in (lit "triload") [(LoadTri, VB true)]
| e_vrep : expert_help cones_in (lit "vrep") [(Vrep, VB true)]
| e_homog : expert_help cones_in (lit "homog") [(Homogenize, VB true)]
| e_equ : expert_help cones_in (lit "equ") []
| e_nonneg : expert_help cones_in (lit "+") [(Nonneg, VB true)]
| e_cdd : expert_help cones_in (lit "cdd") [(CddStyle, VB true)]
| e_lrs : expert_help cones_in (lit "lrs") [(VertexCones, VE "VertexConesWithLrs")].

Lemma atol_show z : - 2 ^ 63 <= z < 2 ^ 63 -> atol (show_Z z) = Ok z.
Proof.
  intros B. assert (Hi : long_range z = true) by (unfold long_range; destruct B as [B1 B2]; apply Z.leb_le in B1; apply Z.ltb_lt in B2; now rewrite B1, B2).
  rewrite <- (app_nil_r (show_Z z)). unfold atol, show_Z. cbv zeta. destruct (to_int_cases z) as [(u&->&N&E)|(u&->&N&E)].
  - destruct (digit_chars_cons u N) as (c&s&Ec&Dc). rewrite Ec; cbn [app].
    destruct (digit_not c Dc) as (S1&S2&S3&_). rewrite (skip_space_plain c _ S1), S2, S3.
    change (c :: (s ++ [])%list) with ((c :: s) ++ [])%list. rewrite <- Ec, (take_digits_app u [] eq_refl).
    cbn [fst]. rewrite E, Hi. reflexivity.
  - cbn [app]. rewrite (skip_space_plain "-"%char _ eq_refl).
    change (is_char "-" "-") with true. cbv iota. rewrite (take_digits_app u [] eq_refl).
    cbn [fst]. rewrite E. replace (- - z) with z by lia. rewrite Hi. reflexivity.
Qed.
Ltac crunch := cbv -[show_Z atoi atol Options.set Z.eqb]; repeat first [rewrite atoi_int by assumption|rewrite atol_show by assumption]; try reflexivity.
Lemma expert_step ci a l c : expert_help ci a l -> count_option ci c a = Ok (fold_left put l c).
Proof.
  intros H0. destruct H0; try (now apply help_step); crunch.
  match goal with H : ci _ = Ok 1 |- _ => rewrite H end. reflexivity.
Qed.
Lemma scan_expert ci l : forall c, Forall (fun p => expert_help ci (fst p) (snd p)) l -> scan_options (count_option ci) c (map fst l) = Ok (fold_left put (all_settings l) c).
Proof.
  induction l as [|[a s] l IH]; intros c F; [reflexivity|]. inversion F as [|x y H F' E1]; subst. cbn [map scan_options fst]. cbn [fst snd] in H. rewrite (expert_step ci a s c H). cbn [bind]. rewrite (IH _ F'). unfold all_settings. cbn [flat_map snd]. now rewrite fold_left_app.
Qed.
Definition hidden (f : field) : bool := match f with ExpectFile | FileName | ExpectDilation => true | _ => false end.
Lemma expert_hidden ci a l f w : expert_help ci a l -> hidden f = true -> ~ In (f, w) l.
Proof.
  intros H I J. destruct H; [apply (help_internal a l f w); [assumption|destruct f; try discriminate I; reflexivity|assumption]|..]; cbn [In] in J; intuition (try congruence); match goal with E : (_, _) = (f, w) |- _ => injection E as <- <-; discriminate I end.
Qed.

(** C81, all options.  Any options in any order, and one input named at any place: every setting
    has the value of the last option that sets it, or its default, except for what the options
    imply: --approximate needs the exponential substitution and cannot use the dual
    decomposition; --avoid-singularities chooses a triangulation method unless one is given or
    the triangulation is done in the primal space; and Ehrhart series need the cones in memory. *)
Theorem count_command_line_all : forall fortytwo lidia cones_in before after a name l,
  Forall (fun p => expert_help cones_in (fst p) (snd p)) before -> Forall (fun p => expert_help cones_in (fst p) (snd p)) after -> names_input a name l ->
  forall cfg, (forall f, holds_after (defaults fortytwo lidia) f (cfg f) (flat_map snd before ++ l ++ flat_map snd after)) ->
  exists c, count_options fortytwo lidia cones_in (map fst before ++ a :: map fst after) = Ok c /\ c FileName = VT name /\
  (forall f, ~ In f [FileName; ExpectFile; MemorySave; Substitution; Decomposition; Triangulation] -> c f = cfg f) /\
  c Substitution = (if yes (cfg Approximate) then VE "ExponentialSubstitution" else cfg Substitution) /\
  (yes (cfg Approximate) = true -> cfg Decomposition = VE "DualDecomposition" -> c Decomposition = VE "IrrationalPrimalDecomposition") /\
  (yes (cfg Approximate) = false \/ cfg Decomposition <> VE "DualDecomposition" -> c Decomposition = cfg Decomposition) /\
  (cfg ShortVector = VE "SubspaceAvoidingLLL" -> cfg Decomposition <> VE "IrrationalAllPrimalDecomposition" -> yes (cfg TriangulationGiven) = false -> c Triangulation = VE "SubspaceAvoidingBoundaryTriangulation") /\
  (cfg ShortVector <> VE "SubspaceAvoidingLLL" \/ cfg Decomposition = VE "IrrationalAllPrimalDecomposition" \/ yes (cfg TriangulationGiven) = true -> c Triangulation = cfg Triangulation) /\
  c MemorySave = (if yes (cfg PrintFile) || yes (cfg RationalCone) then VB false else cfg MemorySave).
Proof.
  intros ft li ci before after a name l F1 F2 N cfg HC. set (d := defaults ft li) in *.
  set (c1 := fold_left put (all_settings before) d). set (c2 := fold_left put (input_of name l) c1). set (c3 := fold_left put (all_settings after) c2).
  assert (K1 : forall f, hidden f = true -> c1 f = d f).
  { intros f I. apply puts_untouched. intros w. apply (settings_internal (expert_help ci)); [|exact F1]. intros x s H. now apply (expert_hidden ci x). }
  assert (K3 : forall f, hidden f = true -> c3 f = c2 f).
  { intros f I. apply puts_untouched. intros w. apply (settings_internal (expert_help ci)); [|exact F2]. intros x s H. now apply (expert_hidden ci x). }
  assert (E2 : c2 ExpectFile = VB false /\ c2 FileName = VT name).
  { unfold c2, input_of. cbn [fold_left]. rewrite !(puts_untouched l) by (intros w; apply (name_internal a name l _ w N); reflexivity). unfold put. cbn [fst snd]. split; [apply set_same|]. rewrite set_other by field_neq. apply set_same. }
  assert (R : scan_options (count_option ci) d (map fst before ++ a :: map fst after) = Ok c3).
  { rewrite scan_app, (scan_expert ci before d F1). cbn [bind scan_options]. fold c1. rewrite (name_step ci a name l c1 N); [|rewrite K1 by reflexivity; reflexivity..]. cbn [bind]. apply (scan_expert ci after _ F2). }
  assert (V : forall f, f <> FileName -> f <> ExpectFile -> c3 f = cfg f).
  { intros f N1 N2. pose proof (puts_holds d f _ _ (HC f)) as Hv. rewrite !fold_left_app in Hv. fold (all_settings before) (all_settings after) c1 in Hv. rewrite <- Hv.
    assert (EX : forall m k1 k2 g, k1 g = k2 g -> fold_left put m k1 g = fold_left put m k2 g).
    { induction m as [|p m IH]; intros k1 k2 g E; [exact E|]. cbn [fold_left]. apply IH. unfold put, set. destruct (field_beq (fst p) g); [reflexivity|exact E]. }
    unfold c3. apply EX. unfold c2, input_of. cbn [fold_left]. apply EX. unfold put. cbn [fst snd]. now rewrite !set_other by congruence. }
  exists (adjust c3). assert (NF : c3 FileName = VT name) by (rewrite K3 by reflexivity; apply E2).
  assert (SV : c3 ShortVector = cfg ShortVector) by (apply V; field_neq). assert (DE : c3 Decomposition = cfg Decomposition) by (apply V; field_neq). assert (TG : c3 TriangulationGiven = cfg TriangulationGiven) by (apply V; field_neq).
  assert (AP : c3 Approximate = cfg Approximate) by (apply V; field_neq). assert (PF : c3 PrintFile = cfg PrintFile) by (apply V; field_neq). assert (RC : c3 RationalCone = cfg RationalCone) by (apply V; field_neq).
  assert (MS : c3 MemorySave = cfg MemorySave) by (apply V; field_neq). assert (SU : c3 Substitution = cfg Substitution) by (apply V; field_neq). assert (TR : c3 Triangulation = cfg Triangulation) by (apply V; field_neq).
  split. { unfold count_options. destruct (map fst before ++ a :: map fst after) as [|x t] eqn:EL; [now destruct (map fst before)|]. fold d. rewrite R. cbn [bind]. rewrite K3 by reflexivity. destruct E2 as [-> _]. reflexivity. }
  split; [now rewrite adjust_name|]. clear K1 K3 E2 R HC F1 F2 N. clearbody c3. clear c2 c1.
  assert (EqE : forall v s, is_e v s = true <-> v = VE s). { intros v s0; destruct v; cbn [is_e]; try (split; discriminate). rewrite String.eqb_eq. split; congruence. }
  assert (NeE : forall v s, v <> VE s -> is_e v s = false). { intros v s H. destruct (is_e v s) eqn:E; [|reflexivity]. now apply EqE in E. }
  unfold adjust. cbv zeta. rewrite SV, DE, TG.
  set (b1 := is_e (cfg ShortVector) "SubspaceAvoidingLLL" && negb (is_e (cfg Decomposition) "IrrationalAllPrimalDecomposition") && negb (yes (cfg TriangulationGiven))).
  assert (B1 : forall f, f <> Triangulation -> (if b1 then Options.set c3 Triangulation (VE "SubspaceAvoidingBoundaryTriangulation") else c3) f = c3 f) by (intros f Nf; destruct b1; [apply set_other; congruence|reflexivity]).
  assert (T1 : (if b1 then Options.set c3 Triangulation (VE "SubspaceAvoidingBoundaryTriangulation") else c3) Triangulation = if b1 then VE "SubspaceAvoidingBoundaryTriangulation" else cfg Triangulation) by (destruct b1; [apply set_same|exact TR]).
  set (k1 := if b1 then _ else _) in *. rewrite !(B1 Approximate) by field_neq. rewrite AP.
  assert (SD : Options.set k1 Substitution (VE "ExponentialSubstitution") Decomposition = cfg Decomposition) by (rewrite set_other by field_neq; rewrite B1 by field_neq; exact DE).
  rewrite SD. set (k2 := if yes (cfg Approximate) then _ else _).
  assert (B2 : forall f, f <> Substitution -> f <> Decomposition -> k2 f = k1 f) by (intros f N1 N2; unfold k2; destruct (yes (cfg Approximate)); [destruct (is_e (cfg Decomposition) "DualDecomposition")|]; rewrite ?set_other by congruence; reflexivity).
  assert (S2 : k2 Substitution = if yes (cfg Approximate) then VE "ExponentialSubstitution" else cfg Substitution).
  { unfold k2. destruct (yes (cfg Approximate)); [destruct (is_e (cfg Decomposition) "DualDecomposition"); rewrite ?(set_other _ Decomposition) by field_neq; apply set_same|]. rewrite B1 by field_neq. exact SU. }
  assert (D2 : k2 Decomposition = if yes (cfg Approximate) && is_e (cfg Decomposition) "DualDecomposition" then VE "IrrationalPrimalDecomposition" else cfg Decomposition).
  { unfold k2. destruct (yes (cfg Approximate)); cbn [andb]; [destruct (is_e (cfg Decomposition) "DualDecomposition"); [apply set_same|exact SD]|]. rewrite B1 by field_neq. exact DE. }
  clearbody k2. rewrite !B2 by field_neq. rewrite !B1 by field_neq. rewrite PF. set (k3 := if yes (cfg PrintFile) then _ else _).
  assert (B3 : forall f, f <> MemorySave -> k3 f = k2 f) by (intros f N1; unfold k3; destruct (yes (cfg PrintFile)); [apply set_other; congruence|reflexivity]).
  assert (M3 : k3 MemorySave = if yes (cfg PrintFile) then VB false else cfg MemorySave). { unfold k3. destruct (yes (cfg PrintFile)); [apply set_same|]. rewrite B2, B1 by field_neq. exact MS. }
  rewrite !B3 by field_neq. rewrite !B2, !B1 by field_neq. rewrite RC. clearbody k3.
  assert (B4 : forall f, f <> MemorySave -> (if yes (cfg RationalCone) then Options.set k3 MemorySave (VB false) else k3) f = k2 f) by (intros f N1; destruct (yes (cfg RationalCone)); [rewrite set_other by congruence|]; now apply B3).
  split; [|split; [|split; [|split; [|split; [|split]]]]].
  - intros f NI. cbn [In] in NI. rewrite B4 by (intros ->; tauto). rewrite B2 by (intros ->; tauto). rewrite B1 by (intros ->; tauto). apply V; intros ->; tauto.
  - rewrite B4 by field_neq. exact S2.
  - intros A D. rewrite B4 by field_neq. rewrite D2, A, D. reflexivity.
  - intros A. rewrite B4 by field_neq. rewrite D2. destruct A as [->|A]; [reflexivity|]. rewrite (NeE _ _ A). now rewrite Bool.andb_false_r.
  - intros A D G. rewrite B4 by field_neq. rewrite B2 by field_neq. rewrite T1. unfold b1. rewrite A, (NeE _ _ D), G. reflexivity.
  - intros A. rewrite B4 by field_neq. rewrite B2 by field_neq. rewrite T1. unfold b1. destruct A as [A|[A|A]]; [now rewrite (NeE _ _ A)|now rewrite A, Bool.andb_false_r|rewrite A; now rewrite !Bool.andb_false_r].
  - destruct (yes (cfg RationalCone)); [rewrite set_same; now rewrite Bool.orb_true_r|]. rewrite M3. now rewrite Bool.orb_false_r.
Qed.
Print Assumptions count_command_line_all.
Example all_met : exists c,
  count_options false false (fun _ => Ok 1) (map lit ["--approximate"; "--avoid-singularities"; "rem"; "cube.latte"; "--num-samples=100"]%string) = Ok c /\ c NumSamples = VN 100 /\ c MemorySave = VB false /\
  c Decomposition = VE "IrrationalPrimalDecomposition" /\ c Substitution = VE "ExponentialSubstitution" /\ c Triangulation = VE "SubspaceAvoidingBoundaryTriangulation".
Proof. eexists. split; [reflexivity|]. repeat split. Qed.

(** C81, the defaults: "count FILE" counts lattice points by the dual decomposition down to
    unimodular cones with the polynomial substitution, from inequalities, without dilation. *)
Theorem count_defaults : forall fortytwo lidia cones_in name, plain_name name -> exists c,
  count_options fortytwo lidia cones_in [name] = Ok c /\ c FileName = VT name /\
  c Substitution = VE "PolynomialSubstitution" /\ c Decomposition = VE "DualDecomposition" /\ c MaxDet = VN 1 /\ c MemorySave = VB true /\ c ShortVector = VE "LatteLLL" /\
  c Triangulation = VE (if fortytwo then "RegularTriangulationWith4ti2" else "RegularTriangulationWithCdd") /\ c MaxHeight = VN 10000 /\ c Bias = VN (-1) /\
  c Dualization = VE (if fortytwo then "DualizationWith4ti2" else "DualizationWithCdd") /\ c VertexCones = VE (if fortytwo then "VertexConesWith4ti2" else "VertexConesWithCdd") /\
  c SmithForm = VE (if lidia then "LidiaSmithForm" else "IlioSmithForm") /\ c Redundancy = VE "FullRedundancyCheckWithCddlib" /\
  c DilationFactor = VN 1 /\ c Degree = VN 1 /\ c NumSamples = VN (-1) /\ c SamplingFactor = VT (lit "1.0") /\ c RemoveFiles = VB true /\
  Forall (fun f => c f = VB false) [AssumeUnimodular; PrintCones; PrintFile; SaveTri; LoadTri; EhrhartPolynomial; Homogenize; RationalCone; Taylor; TriangulationGiven; Subdivision; DebugTriangulation;
    Approximate; Vrep; Interior; Nonneg; CddStyle; Dilation; HomogConeInput; VertexConeInput; InputDualized; SubconesGiven; ListConeFormat].
Proof.
  intros ft li ci name P. destruct (count_command_line ft li ci [] [] name name [] ltac:(constructor) ltac:(constructor) (n_file name P)) as (c & E & FN & V). exists c.
  split; [exact E|]. split; [exact FN|]. cbn [flat_map app] in V.
  assert (V' : forall f, f <> FileName -> f <> ExpectFile -> f <> MemorySave -> c f = defaults ft li f) by (intros f N1 N2 N3; apply V; try assumption; apply untouched; [intros w []|reflexivity]).
  assert (M : c MemorySave = VB true).
  { destruct (count_command_line_all ft li ci [] [] name name [] ltac:(constructor) ltac:(constructor) (n_file name P) (defaults ft li)) as (c' & E' & _ & _ & _ & _ & _ & _ & _ & M); [intros f; apply untouched; [intros w []|reflexivity]|].
    cbn [map app] in E, E'. rewrite E in E'. injection E' as <-. exact M. }
  repeat match goal with |- _ /\ _ => split end; try exact M; try (rewrite V' by field_neq; reflexivity).
  repeat (constructor; [rewrite V' by field_neq; reflexivity|]). constructor.
Qed.
Print Assumptions count_defaults.

(** C81, values that do not exist are errors, wherever they stand. *)
Definition values : list (string * list string) :=
  [("--triangulation=", ["cdd"; "cddlib"; "delone"; "delaunay"; "topcom"; "boundary"; "special"; "4ti2"]); ("--dualization=", ["cdd"; "4ti2"]); ("--smith-form=", ["ilio"; "lidia"]);
   ("--compute-vertex-cones=", ["cdd"; "lrs"; "4ti2"]); ("--redundancy-check=", ["none"; "cddlib"; "full-cddlib"])]%string.
Lemma is_no v s : v <> lit s -> is v s = false.
Proof. intros H. destruct (is v s) eqn:E; [|reflexivity]. now apply text_eqb_true in E. Qed.
Lemma scan_err step a l2 : (forall c, exists e, step c a = Err e) -> forall l1 c, exists e, scan_options step c (l1 ++ a :: l2) = Err e.
Proof.
  intros H. induction l1 as [|b l1 IH]; intros c; cbn [app scan_options]; [destruct (H c) as [e ->]; exists e; reflexivity|].
  destruct (step c b) as [c'|e]; [apply IH|exists e; reflexivity].
Qed.
Theorem bad_values_rejected : forall fortytwo lidia cones_in l1 l2 option v good, In (option, good) values -> ~ In v (map lit good) ->
  exists e, count_options fortytwo lidia cones_in (l1 ++ (lit option ++ v)%list :: l2) = Err e.
Proof.
  intros ft li ci l1 l2 o v good I NI.
  assert (H : forall c, exists e, count_option ci c (lit o ++ v) = Err e).
  { intros c. cbn [values In] in I. destruct I as [I|[I|[I|[I|[I|[]]]]]]; injection I as <- <-; cbn [map In] in NI.
    - exists Exited. change (count_option ci c (lit "--triangulation=" ++ v)) with (bind (bind (triangulation_type v) (fun s => Ok (Options.set c Triangulation (VE s)))) (fun c' => Ok (Options.set c' TriangulationGiven (VB true)))).
      unfold triangulation_type. rewrite !(is_no v) by (intros E; rewrite E in NI; tauto). reflexivity.
    - exists Exited. change (count_option ci c (lit "--dualization=" ++ v)) with (if is v "cdd" then Ok (Options.set c Dualization (VE "DualizationWithCdd")) else if is v "4ti2" then Ok (Options.set c Dualization (VE "DualizationWith4ti2")) else Err Exited).
      rewrite !(is_no v) by (intros E; rewrite E in NI; tauto). reflexivity.
    - exists Exited. change (count_option ci c (lit "--smith-form=" ++ v)) with (if is v "ilio" then Ok (Options.set c SmithForm (VE "IlioSmithForm")) else if is v "lidia" then Ok (Options.set c SmithForm (VE "LidiaSmithForm")) else Err Exited).
      rewrite !(is_no v) by (intros E; rewrite E in NI; tauto). reflexivity.
    - exists Thrown. change (count_option ci c (lit "--compute-vertex-cones=" ++ v)) with (if is v "cdd" then Ok (Options.set c VertexCones (VE "VertexConesWithCdd")) else if is v "lrs" then Ok (Options.set c VertexCones (VE "VertexConesWithLrs"))
          else if is v "4ti2" then Ok (Options.set c VertexCones (VE "VertexConesWith4ti2")) else Err Thrown).
      rewrite !(is_no v) by (intros E; rewrite E in NI; tauto). reflexivity.
    - exists Thrown. change (count_option ci c (lit "--redundancy-check=" ++ v)) with (if is v "none" then Ok (Options.set c Redundancy (VE "NoRedundancyCheck")) else if is v "cddlib" then Ok (Options.set c Redundancy (VE "RedundancyCheckWithCddlib"))
          else if is v "full-cddlib" then Ok (Options.set c Redundancy (VE "FullRedundancyCheckWithCddlib")) else Err Thrown).
      rewrite !(is_no v) by (intros E; rewrite E in NI; tauto). reflexivity. }
  destruct (scan_err (count_option ci) _ l2 H l1 (defaults ft li)) as [e E]. unfold count_options. destruct (l1 ++ (lit o ++ v)%list :: l2) as [|x t] eqn:EL; [exists Thrown; reflexivity|]. rewrite E. exists e. reflexivity.
Qed.
Print Assumptions bad_values_rejected.
(** A special cone must be one cone. *)
Theorem special_cone_single : forall fortytwo lidia cones_in l1 l2 f, cones_in f <> Ok 1 ->
  exists e, count_options fortytwo lidia cones_in (l1 ++ (lit "--special-cone=" ++ f)%list :: l2) = Err e.
Proof.
  intros ft li ci l1 l2 f N.
  assert (H : forall c, exists e, count_option ci c (lit "--special-cone=" ++ f) = Err e).
  { intros c. change (count_option ci c (lit "--special-cone=" ++ f)) with (bind (bind (ci f) (fun k => if k =? 1 then Ok (Options.set c SpecialCone (VT f)) else Err Exited)) (fun c' => Ok c')). destruct (ci f) as [k|e]; [|exists e; reflexivity]. cbn [bind]. destruct (Z.eqb_spec k 1) as [->|_]; [contradiction|]. exists Exited; reflexivity. }
  destruct (scan_err (count_option ci) _ l2 H l1 (defaults ft li)) as [e E]. unfold count_options. destruct (l1 ++ (lit "--special-cone=" ++ f)%list :: l2) as [|x t] eqn:EL; [exists Thrown; reflexivity|]. rewrite E. exists e. reflexivity.
Qed.
Print Assumptions special_cone_single.
Example bad_met : exists e, count_options false false (fun _ => Ok 1) (map lit ["cube.latte"; "--dualization=lrs"]%string) = Err e.
Proof. eexists. reflexivity. Qed.

(** C82: without an integrand, integrate asks for one, unless an unweighted count was asked for
    and it is not interactive. *)
Theorem integrand_asked : forall c u, c Integrand = VE "nothing" -> c Unweighted = VB u ->
  (integrand_source c = Asked <-> u = false \/ c Interactive = VB true) /\ (integrand_source c = NoneNeeded <-> u = true /\ c Interactive <> VB true).
Proof.
  intros c u E U. unfold integrand_source. rewrite E, U. cbn [is_e String.eqb Ascii.eqb Bool.eqb].
  destruct u; cbn [andb]; [destruct (c Interactive) as [[]| | | |]; cbn [yes negb]|]; split; split; intros H; try discriminate H; try destruct H; try discriminate; try congruence; try reflexivity; try (now right); try (now left); split; congruence.
Qed.
Print Assumptions integrand_asked.
Example asked_met : exists c ms, integrate_options false false (fun _ => Ok 1) (map lit ["--valuation=top-ehrhart"; "cube.latte"]%string) = Ok (c, ms) /\ c Unweighted = VB true /\ c Integrand = VE "nothing" /\ integrand_source c = NoneNeeded.
Proof. eexists _, _. split; [reflexivity|]. repeat split. Qed.
