(** What the help texts promise (C81, C82): the settings that each option stands for.
    ReadPolyhedron.cpp:79-136, count.cpp:191-247, valuation.cpp:530-573 and the help of the
    triangulation, dualization and Smith form options. *)
From Coq Require Import String.
From Verif Require Import Common Rational Text Options.
Open Scope Z_scope.

Definition int (z : Z) : Prop := - 2147483648 <= z <= 2147483647.
(** Options of both programs, with the settings they promise. *)
Inductive help : text -> list (field * val) -> Prop :=
| h_vrep : help (lit "--vrep") [(Vrep, VB true)]
| h_cdd : help (lit "--cdd") [(CddStyle, VB true)]
| h_dilation n : int n -> help (lit "--dilation=" ++ show_Z n) [(Dilation, VB true); (DilationFactor, VN n)]
| h_subcones f : help (lit "--subcones=" ++ f) [(SubconesFile, VT f); (SubconesGiven, VB true)]
| h_cones_cdd : help (lit "--compute-vertex-cones=cdd") [(VertexCones, VE "VertexConesWithCdd")]
| h_cones_lrs : help (lit "--compute-vertex-cones=lrs") [(VertexCones, VE "VertexConesWithLrs")]
| h_cones_4ti2 : help (lit "--compute-vertex-cones=4ti2") [(VertexCones, VE "VertexConesWith4ti2")]
| h_red_none : help (lit "--redundancy-check=none") [(Redundancy, VE "NoRedundancyCheck")]
| h_red_cddlib : help (lit "--redundancy-check=cddlib") [(Redundancy, VE "RedundancyCheckWithCddlib")]
| h_red_full : help (lit "--redundancy-check=full-cddlib") [(Redundancy, VE "FullRedundancyCheckWithCddlib")]
| h_homog : help (lit "--homog") [(Homogenize, VB true)]
| h_count : help (lit "--count-lattice-points") []
| h_multivariate : help (lit "--multivariate-generating-function") [(Substitution, VE "NoSubstitution")]
| h_ehrhart : help (lit "--ehrhart-polynomial") [(EhrhartPolynomial, VB true); (Substitution, VE "ExponentialSubstitution")]
| h_series : help (lit "--ehrhart-series") [(Homogenize, VB true); (PrintFile, VB true)]
| h_simplified : help (lit "--simplified-ehrhart-series") [(Homogenize, VB true); (RationalCone, VB true)]
| h_taylor n : int n -> help (lit "--ehrhart-taylor=" ++ show_Z n) [(Taylor, VB true); (Degree, VN n); (Homogenize, VB true)]
| h_dual : help (lit "--dual") [(Decomposition, VE "DualDecomposition")]
| h_primal : help (lit "--irrational-primal") [(Decomposition, VE "IrrationalPrimalDecomposition")]
| h_all_primal : help (lit "--irrational-all-primal") [(Decomposition, VE "IrrationalAllPrimalDecomposition")]
| h_maxdet n : int n -> help (lit "--maxdet=" ++ show_Z n) [(MaxDet, VN n)]
| h_nodecomposition : help (lit "--no-decomposition") [(MaxDet, VN 0)]
| h_polynomial : help (lit "--polynomial") [(Substitution, VE "PolynomialSubstitution")]
| h_exponential : help (lit "--exponential") [(Substitution, VE "ExponentialSubstitution")]
| h_ilio : help (lit "--smith-form=ilio") [(SmithForm, VE "IlioSmithForm")]
| h_lidia : help (lit "--smith-form=lidia") [(SmithForm, VE "LidiaSmithForm")]
| h_dual_cdd : help (lit "--dualization=cdd") [(Dualization, VE "DualizationWithCdd")]
| h_dual_4ti2 : help (lit "--dualization=4ti2") [(Dualization, VE "DualizationWith4ti2")]
| h_tri_cddlib : help (lit "--triangulation=cddlib") [(Triangulation, VE "RegularTriangulationWithCddlib"); (TriangulationGiven, VB true)]
| h_tri_4ti2 : help (lit "--triangulation=4ti2") [(Triangulation, VE "RegularTriangulationWith4ti2"); (TriangulationGiven, VB true)]
| h_tri_topcom : help (lit "--triangulation=topcom") [(Triangulation, VE "PlacingTriangulationWithTOPCOM"); (TriangulationGiven, VB true)]
| h_height n : int n -> help (lit "--triangulation-max-height=" ++ show_Z n) [(MaxHeight, VN n)]
| h_bias n : int n -> help (lit "--triangulation-bias=" ++ show_Z n) [(Bias, VN n)].
(** Options of integrate only. *)
Inductive integrate_help : text -> list (field * val) -> Prop :=
| i_shared a l : help a l -> integrate_help a l
| i_volume : integrate_help (lit "--valuation=volume") [(ValVolume, VB true)]
| i_integrate : integrate_help (lit "--valuation=integrate") [(ValIntegrate, VB true)]
| i_ehrhart : integrate_help (lit "--valuation=top-ehrhart") [(ValEhrhart, VB true); (Unweighted, VB true)]
| i_cone : integrate_help (lit "--cone-decompose") [(UseCones, VB true)]
| i_triangulate : integrate_help (lit "--triangulate") [(UseTriangulation, VB true)]
| i_monomials f : integrate_help (lit "--monomials=" ++ f) [(Integrand, VE "inputPolynomial"); (IntegrandFile, VT f)]
| i_forms f : integrate_help (lit "--linear-forms=" ++ f) [(Integrand, VE "inputLinearForm"); (IntegrandFile, VT f)]
| i_products f : integrate_help (lit "--product-linear-forms=" ++ f) [(Integrand, VE "inputProductLinearForm"); (IntegrandFile, VT f)]
| i_number n : int n -> integrate_help (lit "--num-coefficients=" ++ show_Z n) [(NumCoefficients, VN n)]
| i_real : integrate_help (lit "--real-dilations") [(RealDilations, VB true)]
| i_save f : integrate_help (lit "--top-ehrhart-save=" ++ f) [(SaveTop, VT f)]
| i_unweighted : integrate_help (lit "--top-ehrhart-unweighted") [(Unweighted, VB true); (Interactive, VB false)]
| i_interactive : integrate_help (lit "--interactive-mode") [(Interactive, VB true)].
(** The ways of naming the input: a file name, or an option with one. *)
Definition begins (a : text) (s : string) : Prop := exists r, a = (lit s ++ r)%list.
Definition reserved : list string := ["--"; "nod"; "uni"; "file"; "memsave"; "pri"; "rem"; "trisave"; "triload"; "vre"; "int"; "hom"; "equ"; "+"; "cdd"; "dil"; "lrs"]%string.
Definition plain_name (a : text) : Prop := forall s, In s reserved -> ~ begins a s.
Inductive names_input : text -> text -> list (field * val) -> Prop :=
| n_file f : plain_name f -> names_input f f []
| n_primal f : names_input (lit "--input-primal-homog-cone=" ++ f) f [(InputDualized, VB false); (HomogConeInput, VB true); (Homogenize, VB true)]
| n_dual f : names_input (lit "--input-dual-homog-cone=" ++ f) f [(InputDualized, VB true); (HomogConeInput, VB true); (Homogenize, VB true)]
| n_primals f : names_input (lit "--input-primal-homog-cones=" ++ f) f [(InputDualized, VB false); (HomogConeInput, VB true); (ListConeFormat, VB true); (Homogenize, VB true)]
| n_duals f : names_input (lit "--input-dual-homog-cones=" ++ f) f [(InputDualized, VB true); (HomogConeInput, VB true); (ListConeFormat, VB true); (Homogenize, VB true)]
| n_vertex f : names_input (lit "--input-vertex-cones=" ++ f) f [(InputDualized, VB false); (VertexConeInput, VB true); (ListConeFormat, VB true)].
(** The value that a list of settings gives to [f]: the last one counts. *)
Inductive holds_after (start : config) (f : field) (v : val) : list (field * val) -> Prop :=
| untouched l : (forall w, ~ In (f, w) l) -> start f = v -> holds_after start f v l
| last_set l1 l2 : (forall w, ~ In (f, w) l2) -> holds_after start f v (l1 ++ (f, v) :: l2).
