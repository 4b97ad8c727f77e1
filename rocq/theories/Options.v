(** The command lines of count (code/latte/count.cpp:86-341) and integrate
    (code/latte/valuation/valuation.cpp:420-764, 1097-1179, 804-866), with the option parsers
    they share: ReadPolyhedron.cpp:41-77, 138-258; triangulation/triangulate.cpp:43-88;
    dual.cpp:41-62; genFunction/matrix_ops.cpp:26-53; barvinok/barvinok.cpp:54-90.

    An argument is a list of characters without NUL.  strcpy(x, "yes") / "no" into the char
    arrays is a Boolean.  atof is not modelled: the text of --sampling-factor= is kept.
    Messages on cerr are left out. *)
From Coq Require Import String.
From Verif Require Import Common Rational Text LatteText.
Open Scope Z_scope.

(** The variables that the options set. *)
Inductive field :=
| Substitution | Decomposition | MaxDet | AssumeUnimodular | MemorySave | PrintCones | PrintFile | RemoveFiles | SaveTri | LoadTri
| EhrhartPolynomial | Homogenize | RationalCone | Taylor | Degree | ShortVector | Triangulation | TriangulationGiven | MaxHeight
| Subdivision | Bias | SpecialCone | DebugTriangulation | Dualization | SmithForm | Approximate | SamplingFactor | NumSamples | Seed
| Vrep | Interior | Nonneg | CddStyle | Dilation | DilationFactor | ExpectDilation | VertexCones | Redundancy | FileName | ExpectFile
| HomogConeInput | VertexConeInput | InputDualized | SubconesGiven | SubconesFile | ListConeFormat
| ValVolume | ValIntegrate | ValEhrhart | Unweighted | Interactive | NumCoefficients | SaveTop | RealDilations | UseCones | UseTriangulation | AsPLF | Integrand | IntegrandFile.
Scheme Equality for field.
(** Their values: bool, int, string, the name of an enumerator, or not initialised. *)
Inductive val := VB (b : bool) | VN (z : Z) | VT (t : text) | VE (s : string) | Uninitialised.
Notation config := (field -> val).
Definition yes (v : val) : bool := match v with VB true => true | _ => false end.
Definition is_e (v : val) (s : string) : bool := match v with VE t => String.eqb t s | _ => false end.
Definition set (c : config) (f : field) (v : val) : config := fun g => if field_beq f g then v else c g.

(** strncmp(a, b, n) == 0 and strcmp(a, b) == 0. *)
Fixpoint same_chars (n : nat) (a b : text) : bool :=
  match n with
  | O => true
  | S n' => match a, b with
            | [], [] => true
            | x :: a', y :: b' => is_char x y && same_chars n' a' b'
            | _, _ => false
            end
  end.
Definition starts (a : text) (s : string) (n : nat) : bool := same_chars n a (lit s).
Definition is (a : text) (s : string) : bool := text_eqb a (lit s).

(** atol: as atoi, for 64-bit long. *)
Definition long_range (z : Z) : bool := (- 2 ^ 63 <=? z) && (z <? 2 ^ 63).
Definition atol (s : text) : outcome Z :=
  let s1 := skip_space s in
  let '(neg, s2) := match s1 with
    | c :: s' => if is_char "-" c then (true, s') else if is_char "+" c then (false, s') else (false, s1)
    | [] => (false, s1) end in
  let u := fst (take_digits s2) in
  let z := if neg : bool then - Z.of_uint u else Z.of_uint u in
  if long_range z then Ok z else Err IntOverflow.

Section Build.
(** The configuration of the build: 4ti2 and LiDIA compiled in or not; and the number of
    cones that readListConeFromFile finds in a file. *)
Context (fortytwo lidia : bool) (cones_in : text -> outcome Z).

(** ReadPolyhedron.cpp:41-77 ReadPolyhedronData(), barvinok.cpp:54-90 BarvinokParameters(),
    count.cpp:86-95.  Also valuation.cpp:1097-1128 IntegrationInput(), which does not
    initialise unweightedCounting; integrandType = nothing. *)
Definition defaults : config := fun f =>
  match f with
  | Substitution => VE "PolynomialSubstitution" | Decomposition => VE "DualDecomposition" | MaxDet => VN 1
  | Triangulation => VE (if fortytwo then "RegularTriangulationWith4ti2" else "RegularTriangulationWithCdd")
  | MaxHeight => VN 10000 | Bias => VN (-1) | SpecialCone => VT []
  | Dualization => VE (if fortytwo then "DualizationWith4ti2" else "DualizationWithCdd")
  | ShortVector => VE "LatteLLL" | SmithForm => VE (if lidia then "LidiaSmithForm" else "IlioSmithForm")
  | MemorySave => VB true | RemoveFiles => VB true | Degree => VN 1 | SamplingFactor => VT (lit "1.0") | NumSamples => VN (-1) | Seed => Uninitialised
  | VertexCones => VE (if fortytwo then "VertexConesWith4ti2" else "VertexConesWithCdd") | Redundancy => VE "FullRedundancyCheckWithCddlib"
  | DilationFactor => VN 1 | FileName => VT [] | ExpectFile => VB true | SubconesFile => VT []
  | Unweighted => Uninitialised | NumCoefficients => VN (-1) | SaveTop => VT (lit "-1") | Integrand => VE "nothing" | IntegrandFile => VT []
  | _ => VB false
  end.

(** [x = atoi(t)]: conversion, then the assignment. *)
Definition set_int (c : config) (f : field) (t : text) : outcome config := bind (atoi t) (fun z => Ok (set c f (VN z))).

(** triangulate.cpp:43-59 triangulation_type_from_name *)
Definition triangulation_type (t : text) : outcome string :=
  if is t "cdd" then Ok "RegularTriangulationWithCdd"%string
  else if is t "cddlib" then Ok "RegularTriangulationWithCddlib"%string
  else if is t "delone" || is t "delaunay" then Ok "DeloneTriangulationWithCddlib"%string
  else if is t "topcom" then Ok "PlacingTriangulationWithTOPCOM"%string
  else if is t "boundary" then Ok "SubspaceAvoidingBoundaryTriangulation"%string
  else if is t "special" then Ok "SubspaceAvoidingSpecialTriangulation"%string
  else if is t "4ti2" then Ok "RegularTriangulationWith4ti2"%string
  else Err Exited.
(** triangulate.cpp:60-88 parse_standard_triangulation_option; [None]: returns false. *)
Definition triangulation_option (c : config) (a : text) : option (outcome config) :=
  if starts a "--triangulation=" 16 then Some (bind (triangulation_type (skipn 16 a)) (fun s => Ok (set c Triangulation (VE s))))
  else if starts a "--triangulation-max-height=" 27 then Some (set_int c MaxHeight (skipn 27 a))
  else if starts a "--nonsimplicial-subdivision" 9 then Some (Ok (set c Subdivision (VB true)))
  else if starts a "--triangulation-bias=" 21 then Some (set_int c Bias (skipn 21 a))
  else if starts a "--special-cone=" 15 then
    Some (bind (cones_in (skipn 15 a)) (fun k => if k =? 1 then Ok (set c SpecialCone (VT (skipn 15 a))) else Err Exited))
  else if is a "--debug-triangulation" then Some (Ok (set c DebugTriangulation (VB true)))
  else None.
(** dual.cpp:41-62 *)
Definition dualization_option (c : config) (a : text) : option (outcome config) :=
  if starts a "--dualization=" 14 then
    let t := skipn 14 a in
    Some (if is t "cdd" then Ok (set c Dualization (VE "DualizationWithCdd")) else if is t "4ti2" then Ok (set c Dualization (VE "DualizationWith4ti2")) else Err Exited)
  else None.
(** matrix_ops.cpp:26-53 *)
Definition smith_option (c : config) (a : text) : option (outcome config) :=
  if starts a "--smith-form=" 13 then
    let t := skipn 13 a in
    Some (if is t "ilio" then Ok (set c SmithForm (VE "IlioSmithForm")) else if is t "lidia" then Ok (set c SmithForm (VE "LidiaSmithForm")) else Err Exited)
  else None.

(** ReadPolyhedron.cpp:138-258 ReadPolyhedronData::parse_option.  [None]: returns false.
    "int" and "--interior" always throw. *)
Definition polyhedron_option (c : config) (a : text) : option (outcome config) :=
  let input f dualized vertex := set (set (set (set c FileName (VT f)) ExpectFile (VB false)) InputDualized (VB dualized)) (if vertex : bool then VertexConeInput else HomogConeInput) (VB true) in
  if starts a "vrep" 3 then Some (Ok (set c Vrep (VB true)))
  else if starts a "int" 3 then Some (Err Thrown)
  else if starts a "homog" 3 then Some (Ok (set c Homogenize (VB true)))
  else if starts a "equ" 3 then Some (Ok c)
  else if starts a "+" 1 then Some (Ok (set c Nonneg (VB true)))
  else if starts a "cdd" 3 then Some (Ok (set c CddStyle (VB true)))
  else if starts a "dil" 3 then Some (Ok (set (set c Dilation (VB true)) ExpectDilation (VB true)))
  else if starts a "lrs" 3 then Some (Ok (set c VertexCones (VE "VertexConesWithLrs")))
  else if starts a "--dilation=" 11 then Some (set_int (set c Dilation (VB true)) DilationFactor (skipn 11 a))
  else if is a "--interior" then Some (Err Thrown)
  else if is a "--vrep" then Some (Ok (set c Vrep (VB true)))
  else if is a "--homog" then Some (Ok (set c Homogenize (VB true)))
  else if is a "--cdd" then Some (Ok (set c CddStyle (VB true)))
  else if starts a "--input-primal-homog-cone=" 26 then Some (Ok (set (input (skipn 26 a) false false) Homogenize (VB true)))
  else if starts a "--input-dual-homog-cone=" 24 then Some (Ok (set (input (skipn 24 a) true false) Homogenize (VB true)))
  else if starts a "--subcones=" 11 then Some (Ok (set (set c SubconesFile (VT (skipn 11 a))) SubconesGiven (VB true)))
  else if starts a "--input-primal-homog-cones=" 27 then Some (Ok (set (set (input (skipn 27 a) false false) ListConeFormat (VB true)) Homogenize (VB true)))
  else if starts a "--input-dual-homog-cones=" 25 then Some (Ok (set (set (input (skipn 25 a) true false) ListConeFormat (VB true)) Homogenize (VB true)))
  else if starts a "--input-vertex-cones=" 21 then Some (Ok (set (input (skipn 21 a) false true) ListConeFormat (VB true)))
  else if starts a "--compute-vertex-cones=" 23 then
    let t := skipn 23 a in
    Some (if is t "cdd" then Ok (set c VertexCones (VE "VertexConesWithCdd")) else if is t "lrs" then Ok (set c VertexCones (VE "VertexConesWithLrs"))
          else if is t "4ti2" then Ok (set c VertexCones (VE "VertexConesWith4ti2")) else Err Thrown)
  else if starts a "--redundancy-check=" 19 then
    let t := skipn 19 a in
    Some (if is t "none" then Ok (set c Redundancy (VE "NoRedundancyCheck")) else if is t "cddlib" then Ok (set c Redundancy (VE "RedundancyCheckWithCddlib"))
          else if is t "full-cddlib" then Ok (set c Redundancy (VE "FullRedundancyCheckWithCddlib")) else Err Thrown)
  else if negb (starts a "--" 2) then
    if yes (c ExpectDilation) then Some (bind (atoi a) (fun z => Ok (set (set c DilationFactor (VN z)) ExpectDilation (VB false))))
    else if yes (c ExpectFile) then Some (Ok (set (set c FileName (VT a)) ExpectFile (VB false)))
    else None
  else None.

(** count.cpp:99-190 and valuation.cpp:440-529: the rules both programs start with; the test
    for "--polynomial" differs.  [None]: no rule applies. *)
Definition shared_option (polynomial : text -> bool) (c : config) (a : text) : option (outcome config) :=
  if starts a "nodecom" 3 || starts a "--nodecomposition" 5 || starts a "--no-decomposition" 7 then Some (Ok (set c MaxDet (VN 0)))
  else if starts a "uni" 3 then Some (Ok (set c AssumeUnimodular (VB true)))
  else if starts a "file" 4 then Some (Ok (set c MemorySave (VB false)))
  else if starts a "memsave" 7 then Some (Ok (set c MemorySave (VB true)))
  else if starts a "printcones" 3 then Some (Ok (set c PrintCones (VB true)))
  else if starts a "rem" 3 then Some (Ok (set (set c RemoveFiles (VB false)) MemorySave (VB false)))
  else if starts a "trisave" 7 then Some (Ok (set c SaveTri (VB true)))
  else if starts a "triload" 7 then Some (Ok (set c LoadTri (VB true)))
  else if starts a "--exponential" 5 then Some (Ok (set c Substitution (VE "ExponentialSubstitution")))
  else if polynomial a then Some (Ok (set c Substitution (VE "PolynomialSubstitution")))
  else if starts a "--maxdet=" 9 then Some (set_int c MaxDet (skipn 9 a))
  else if starts a "--irrational-all-primal" 14 || starts a "--all-primal" 5 then Some (Ok (set c Decomposition (VE "IrrationalAllPrimalDecomposition")))
  else if starts a "--irrational-primal" 5 then Some (Ok (set c Decomposition (VE "IrrationalPrimalDecomposition")))
  else if is a "--dual" then Some (Ok (set c Decomposition (VE "DualDecomposition")))
  else if starts a "--count-lattice-points" 7 then Some (Ok c)
  else if starts a "--multivariate-generating-function" 7 then Some (Ok (set c Substitution (VE "NoSubstitution")))
  else if starts a "--ehrhart-polynomial" 11 then Some (Ok (set (set c EhrhartPolynomial (VB true)) Substitution (VE "ExponentialSubstitution")))
  else if starts a "--ehrhart-series" 11 then Some (Ok (set (set c Homogenize (VB true)) PrintFile (VB true)))
  else if starts a "--simplified-ehrhart-series" 14 then Some (Ok (set (set c Homogenize (VB true)) RationalCone (VB true)))
  else if starts a "--ehrhart-taylor=" 17 then
    Some (bind (set_int (set c Taylor (VB true)) Degree (skipn 17 a)) (fun c' => Ok (set c' Homogenize (VB true))))
  else if starts a "--avoid-singularities" 7 then Some (Ok (set c ShortVector (VE "SubspaceAvoidingLLL")))
  else match triangulation_option c a with
  | Some r => Some (bind r (fun c' => Ok (if starts a "--triangulation=" 16 then set c' TriangulationGiven (VB true) else c')))
  | None => match dualization_option c a with
  | Some r => Some r
  | None => match smith_option c a with
  | Some r => Some r
  | None =>
      if starts a "--approximate" 7 then Some (Ok (set c Approximate (VB true)))
      else if starts a "--sampling-factor=" 18 then Some (Ok (set c SamplingFactor (VT (skipn 18 a))))
      else if starts a "--num-samples=" 14 then Some (bind (atol (skipn 14 a)) (fun z => Ok (set c NumSamples (VN z))))
      else if starts a "--random-seed=" 14 then Some (set_int c Seed (skipn 14 a))
      else None
  end end end.

(** count.cpp:97-255: one pass of the loop. *)
Definition count_option (c : config) (a : text) : outcome config :=
  match shared_option (fun a => starts a "--polynomial" 6) c a with
  | Some r => r
  | None =>
      if is a "--help" then Err Thrown else
      match polyhedron_option c a with Some r => r | None => Err Thrown end
  end.

(** count.cpp:263-308, 310-319; valuation.cpp:685-745: adjustments after the loop.  minimize, grobner and
    maximum are "no": no option sets them. *)
Definition adjust (c : config) : config :=
  let c1 := if is_e (c ShortVector) "SubspaceAvoidingLLL" && negb (is_e (c Decomposition) "IrrationalAllPrimalDecomposition") && negb (yes (c TriangulationGiven))
            then set c Triangulation (VE "SubspaceAvoidingBoundaryTriangulation") else c in
  let c2 := if yes (c1 Approximate) then
        let c' := set c1 Substitution (VE "ExponentialSubstitution") in
        if is_e (c' Decomposition) "DualDecomposition" then set c' Decomposition (VE "IrrationalPrimalDecomposition") else c'
    else c1 in
  let c3 := if yes (c2 PrintFile) then set c2 MemorySave (VB false) else c2 in
  if yes (c3 RationalCone) then set c3 MemorySave (VB false) else c3.

Fixpoint scan_options (step : config -> text -> outcome config) (c : config) (args : list text) : outcome config :=
  match args with [] => Ok c | a :: t => bind (step c a) (fun c' => scan_options step c' t) end.

(** count.cpp:69-341: the arguments after the program name. *)
Definition count_options (args : list text) : outcome config :=
  match args with
  | [] => Err Thrown
  | _ => bind (scan_options count_option defaults args) (fun c => if yes (c ExpectFile) then Err Thrown else Ok (adjust c))
  end.

(** valuation.cpp:437-648: one pass of the loop of integrate.  --help exits. *)
Definition integrate_option (c : config) (a : text) : outcome config :=
  match shared_option (fun a => is a "--polynomial") c a with
  | Some r => r
  | None =>
      if is a "--help" then Err Exited
      else if starts a "--valuation=" 11 then
        Ok (if is a "--valuation=volume" then set c ValVolume (VB true)
            else if is a "--valuation=integrate" then set c ValIntegrate (VB true)
            else if is a "--valuation=top-ehrhart" then set (set c ValEhrhart (VB true)) Unweighted (VB true)
            else c)
      else if is a "--top-ehrhart-unweighted" then Ok (set (set c Unweighted (VB true)) Interactive (VB false))
      else if is a "--interactive-mode" then Ok (set c Interactive (VB true))
      else if starts a "--num-coefficients=" 19 then set_int c NumCoefficients (skipn 19 a)
      else if starts a "--top-ehrhart-save=" 19 then Ok (set c SaveTop (VT (skipn 19 a)))
      else if starts a "--real-dilations" 6 then Ok (set c RealDilations (VB true))
      else if is a "--cone-decompose" then Ok (set c UseCones (VB true))
      else if is a "--triangulate" then Ok (set c UseTriangulation (VB true))
      else if is a "--polynomial-as-plf" then Ok (set c AsPLF (VB true))
      else if starts a "--monomials=" 12 then Ok (set (set c Integrand (VE "inputPolynomial")) IntegrandFile (VT (skipn 12 a)))
      else if starts a "--linear-forms=" 15 then Ok (set (set c Integrand (VE "inputLinearForm")) IntegrandFile (VT (skipn 15 a)))
      else if starts a "--product-linear-forms=" 23 then Ok (set (set c Integrand (VE "inputProductLinearForm")) IntegrandFile (VT (skipn 23 a)))
      else match polyhedron_option c a with Some r => r | None => Err Thrown end
  end.

(** What integrate may compute (the Booleans of valuation.h:130-146). *)
Inductive method := VolumeCone | VolumeTriangulation | FormsCone | FormsTriangulation | ProductsTriangulation
| PolynomialCone | PolynomialTriangulation | PolynomialAsProducts | TopEhrhart.
(** valuation.cpp:1131-1179 processUserInput: the integrand type it leaves, and the methods
    it switches on (no method is on before). *)
Definition process_user_input (c : config) : config * list method :=
  if yes (c ValVolume) then
    (set c Integrand (VE "inputVolume"),
     if yes (c UseCones) then [VolumeCone] else if yes (c UseTriangulation) then [VolumeTriangulation] else [VolumeCone; VolumeTriangulation])
  else (c,
    if yes (c ValIntegrate) then
      if is_e (c Integrand) "inputLinearForm" then
        if yes (c UseCones) then [FormsCone] else if yes (c UseTriangulation) then [FormsTriangulation] else [FormsCone; FormsTriangulation]
      else if is_e (c Integrand) "inputProductLinearForm" then [ProductsTriangulation]
      else if is_e (c Integrand) "inputPolynomial" then
        if yes (c UseCones) then [PolynomialCone] else if yes (c UseTriangulation) then [PolynomialTriangulation]
        else if yes (c AsPLF) then [PolynomialAsProducts] else [PolynomialCone; PolynomialTriangulation; PolynomialAsProducts]
      else []
    else if yes (c ValEhrhart) then [TopEhrhart] else []).
Definition is_cone_method (m : method) : bool := match m with VolumeCone | FormsCone | PolynomialCone | TopEhrhart => true | _ => false end.

(** valuation.cpp:411-764: the arguments after the program name; IntegrationInput and
    decomposition as initialised there (431). *)
Definition integrate_defaults : config := set defaults Decomposition (VE "IrrationalAllPrimalDecomposition").
Definition integrate_options (args : list text) : outcome (config * list method) :=
  match args with
  | [] => Err Thrown
  | _ =>
      bind (scan_options integrate_option integrate_defaults args) (fun c =>
      if negb (yes (c ValEhrhart)) && negb (yes (c ValIntegrate)) && negb (yes (c ValVolume)) then Err Thrown else
      let '(c1, ms) := process_user_input c in
      let cones := existsb is_cone_method ms || yes (c1 UseCones) || (negb (yes (c1 UseCones)) && negb (yes (c1 UseTriangulation))) in
      let c2 := set c1 Homogenize (VB (negb cones)) in
      if yes (c2 ExpectFile) then Err Thrown else Ok (adjust c2, ms))
  end.

(** valuation.cpp:796-866: where the integrand comes from.  Reading a bool that was never
    initialised is undefined. *)
Inductive source := NoneNeeded | FromFile (f : text) | Asked | Undefined.
Definition integrand_source (c : config) : source :=
  if is_e (c Integrand) "inputVolume" then NoneNeeded
  else if is_e (c Integrand) "nothing" then
    match c Unweighted with
    | VB u => if u && negb (yes (c Interactive)) then NoneNeeded else Asked
    | _ => Undefined
    end
  else match c IntegrandFile with VT f => FromFile f | _ => Undefined end.
End Build.
