# Formal model of latte-int/latte in Rocq (Coq 8.16.1)

## Layout

`rocq/theories/` has, per topic `X`:

* `X.v` (or `XModel.v`) – the *model*: small, total, computable Gallina functions, one per C++ function, each with a
  comment citing file and lines in `/repo`, and saying what is simplified. Undefined behaviour, failed `assert`s,
  exceptions and `exit` are distinct outcomes, never normal-looking values.
* `XSpec.v` where the specification needs vocabulary of its own – short, independent of the model's helpers.
* `XProofs.v` – lemmas.
* `P_X.v` – only property theorems, each closed by `exact lemma`, with `Print Assumptions` beneath it and an `Example`
  showing a concrete non-trivial case that meets the hypotheses.

Theorems named `..._refuted` show, with a concrete witness, that the unchanged code violates the property;
`..._partial` theorems prove part of a property, the missing part is named beside them and in `MANIFEST.json`.

## Modelling conventions

* NTL `ZZ`, GMP `mpz`/`mpq` are unbounded `Z` / `Q` (or mathcomp `int` / `rat`). C `int` is unbounded unless the property is
  about overflow, in which case it is modelled explicitly. NTL division and remainder on `ZZ` round to minus infinity
  (quotient) with the remainder taking the sign of the divisor: exactly Coq's `Z.div` / `Z.modulo`, with division by zero
  an explicit error outcome.
* Linked lists are Coq lists (destructive updates return the new value); arrays are lists or functions with explicit
  bounds; loops are structural recursion, folds, or fuelled recursion that returns a distinct out-of-fuel value.
* Calls to external programs / libraries (cdd, 4ti2, LLL, NTL determinant and inverse, Smith form) are parameters of the
  model functions, their assumed behaviour an explicit hypothesis of the theorem.
* Random choices are universally quantified inputs.

## Properties: what is modelled and how it is proved

See `properties.jsonl` for the English statements and `MANIFEST.json` for the theorem names and what each leaves open.
"Refuted" means that a witness computed in the model shows that the unchanged code violates (part of) the property; the
remaining true part is proved beside it and the property is then claimed `partial`.

| id | files (`rocq/theories`) | modelled | proof idea |
|----|----|-------|------------|
| C01,C02,C04,C51–C53 | Rational* | RationalNTL as a pair of `Z` with the code's canonicalisation; client programs as lists of operations on a store (aliasing included) | invariant + value homomorphism into `Q`; C04, C51 refuted |
| C03,C68 | Text, PolyText* | character lists; NTL / iostream decimal conversion as contract in Text.v | round trip by induction on digits; C68 partly refuted |
| C05–C07,C54 | RatVec* | rationalVector record with cached scale and flag; histories are lists of operations | cache-coherence invariant; lcm characterised by divisibility |
| C08,C09 | Heap* | heap array as list, index recursion | heap order invariant, permutation refinement to a multiset |
| C10,C13,C59 | Trie* | burst trie as inductive type, sorted containers, iterator as state machine | refinement to a finite map, lexicographic order; C13 refuted for empty products |
| C11,C14 | Block* | block lists (block size parameter) | refinement to a list of terms; C14 refuted |
| C12,C49,C67 | PolyText* | printers and parsers over character lists | round trip; C49, C67 partly refuted |
| C15–C18,C60 | Integ* | odometer enumeration, lcm/gcd accumulation, truncated series | finite differences, Lasserre–Avrachenkov and distinct-vertex formulae over `Q`; C16 refuted for constants |
| C19 | Interp* | Vandermonde matrix, Gaussian elimination with row swaps | row operations preserve the solution set; root counting; repeated abscissa refuted |
| C20,C41,C63 | Exp* | Todd polynomials, exponential residue | power series over `Q` |
| C21–C24 | Knapsack*, Periodic* | expression trees; association lists | denotation homomorphism; divisibility-order induction |
| C25 | IntComb* | odometer state machine | mixed-radix value increases by one |
| C26–C28 | Piped*, Irrational* | facet data, parallelepiped enumeration, irrationalisation | residues modulo facet divisors; bijection with the quotient group; interval argument |
| C29,C30 | Barvinok*, Decomp* | signed decomposition | interval argument on the line x - t z; induction on the index |
| C31,C32,C45,C61,C62 | Hermite*, Preproc*, Smith* | matrix row/column operations | each step unimodular; termination measure; C32, C45 partly refuted |
| C33 | Kannan* | aggregation arithmetic | digits in base lambda; lambda = 0 refuted |
| C34 | BinSearch* | search loop with a counting oracle | interval invariant; sign refuted |
| C35,C46,C47,C55,C56 | ListOps*, Rows* | pointer-level lists with explicit heap | induction; C35, C46 refuted |
| C36,C38,C50,C57,C58 | Util* | byte encoding, timer, random ranges, C integers with explicit overflow | round trip, interval bounds; C50 partly refuted |
| C37 | LatteText* | the input format with keywords; iostream as contract | round trip; three refuted side cases |
| C39,C69 | Graph* | adjacency lists; rand() is an arbitrary stream | connectivity by induction; termination for fair streams; refuted requests |
| C70,C71 | Hyper* | hypersimplices, Kneser graphs, edge polytopes | enumeration up to permutation |
| C40,C64 | PolyTree* | shared expression trees with cached Taylor expansion, node pool | invariant of the cache |
| C42,C43,C48,C66 | Valuation* | dilation, triangulation method, volume, histories of calls | homogeneity; C48, C66 refuted |
| C44,C65 | Perturb*, Integral* | merging of factors, cone (Lawrence) method with perturbation | value by residues, limit argument, Brion's theorem; the random search refuted |
| C77 | ConeMethod* with Valuation | `findVolumeUsingLawrence`, cone method for rational polytopes | integral as a limit of Riemann sums over `Q`; uniqueness of the integral is a theorem |
| C72,C73 | Count*, Brion*, Euler* | count.cpp from rows and vertices to the number and the Ehrhart polynomial | Brion, polarity and Euler's relation are proved |
| C74,C75 | GenFun* | multivariate generating function as text | independent reader of arithmetic expressions; C75 partly refuted |
| C76 | Residue* | Residue_Single_Cone with fixed-point accumulation | residue = constant term; error bound; rounding refuted |
| C78 | Triang* | heights, lifting, walk over cddlib's facets, recursion on non-simplicial facets | lower facets of the lifted cone; any two are separated by the difference of their forms |
| C79 | Omega*, LLLProofs | ComputeOmega: rows of the transformation matrix, search over the box of coefficients | lattice of determinants = adjugate; Gram–Schmidt bounds for reduced bases; coefficients of short vectors up to dimension 5; existence of reduced bases by descent on Gram determinants |
| C80 | P_Full | count with the triangulation and the short vectors of the code | composition of C72, C78 and C79 |
| C81,C82 | Options* | option parsing of count and integrate, argument by argument; atof not modelled | each documented option by computation with its value symbolic; last setting wins by induction; refuted cases |
| C83 | CheckEmpty* | the two passes over the file, the linear program written, the use of cdd's answer; cdd's answer by contract | the written program's rows read back as the described set, per keyword order; refuted orders and rational entries by computation |
| C84 | CddText* | the texts exchanged with cdd: the .ine file written, the .ext and .ead files read; cdd itself is a function from text to texts | parsers proved against a relational description of the files (tokens and lines); ray construction from C07; refuted for rays |
| C85 | CountFile* | count.cpp and ReadPolyhedron.cpp from the text of the file to the number, composed of the models of all parts; cdd, dd_MatrixCanonicalize, NTL and rand() are functions with contracts | file = matrix (C37, C83), equations eliminated (C45), bounded set has no direction, cdd's files give the vertices (C84), count on the reduced polytope (C80, C76), points correspond one to one |
| C86 | Subcones* | ReadSubcones.cpp: the writer as a text that is appended to and overwritten in its first 16 characters, the reader as an istream (text and good()) | invariant of the file over all histories (header, dimension, rows); reader proved on every layout; refuted for repeated rays and stopped writers |
| C87 | VertexCones* | VertexConesWith4ti2.cpp: the slack matrix, the rays of the homogenization (4ti2 is a function that meets a contract on the call made), vertices, facets with content cancelled; count.cpp with these | vertices are the extreme rays with t > 0 (perturbation along a direction orthogonal to the tight rows; conversely a decomposition of the lifted vertex); the count by moving the cancellation into the triangulation |
| C88 | Approx* | ExponentialApprox.cpp: bounds of powers, of residues, the heap of cones (which one is on top is a parameter), the refinement loop | the points of a parallelepiped are |det| many and lie between the bounds, so each power sum does; invariant: sum of exact values of finished cones and of those in the heap is the count, by the signed decomposition of each step; termination by the sum of (n+1)^index over the heap |
| C89 | Dig*, DigMain* | dec.cpp decomposeCones with the calls of maximize.cpp and minimize.cpp; ConeInfo.cpp: Vector_Heap and ConeInfo_Heap, constructor, sort, Calculate_Next_Highest_Term, Calculate_Integral_Point, Calculate_Pertubation; IntegralHull.cpp SolveIP; the calls of maximize.cpp and minimize.cpp | heaps: order and shape (the positions in use are the binary numbers up to the count) against a bag; each level of a cone is exactly the set of exponent vectors of that value (every vector has a unique predecessor); the expansions of the cones add up to the points because a function that vanishes for large costs is determined by its differences; invariant of the main loop: no point and no term not yet dug above the bound; end to end: the cones of the decomposition of C72 with their lattice points generate the integer points |
| C90 | ResidueList*, ResidueMain* | Residue.cpp Residue with its two searches for the substitution, the translation and the rounding; count.cpp with the cones in memory; maximize.cpp and minimize.cpp from the decomposition to SolveIP | the incremental dot products equal the full ones; loop 1 skips only vectors with the same product with the ray that failed (they agree before the first entry that counts); the terms are those of C76 moved by a common exponent, the total is the constant term of the generating function, whatever the translation; the error of the roundings is below half of the power of ten because that exceeds twice the number of cones |
| C91 | ConvertIne* | convertCDD_ine_to_latte.cpp main with RationalNTL's reading and printing and istream::ignore | the text is decomposed into lines and words with the lemmas of CddTextProofs; the fold of lcms is the least multiplier (divides every j with j*q integral for all entries); num*l/den in lowest terms has denominator 1; the written file is read by C37's matrix reader.  Refuted parts by evaluating the model on literal files, and for LattE's own files by a lemma on lines different from "begin" |
| C92 | Hull* | IntegralHull.cpp IntegralHull, GetHRepresentation, GetVertices, CheckVertices, Push_Vector; SolveIP as an exact solver (digging: solve_ip of Dig.v) and lrs as contracts | the counter is the sum over the new points of their multiplicities in the list, so that it decides "all known" up to repetitions; if all are known, the maximum of every facet normal is attained in the list, hence every integer point satisfies the rows of lrs and is in the hull; each further round adds a point that was not in the list (measure: missing points).  Refutations by running the model with an exhaustive solver on a pentagon and a segment, with separating functionals |
| C93 | Normalize* | normalize/normalize.cpp handle_cone and normalize_main from the rays on; points in the parallelepipeds by Piped.v, determinants and facets of simplicial cones by dual (Piped.v), zsolve and triangulation as contracts | invariant over the recursion: written vectors lie in the cone and every finished cone is generated by rays and written vectors; a simplicial cone by splitting into floor and fractional part |
| C94 | Dualize* | dual.cpp dualizeCone and dualizeCone_with_cdd, DualizationWith4ti2.cpp, latte_4ti2_zsolve.cpp; simplicial cones by det_and_facets of Piped.v; cdd and 4ti2 as functions with contracts | the lifted cone {s + R y = 0, s >= 0} is linearly isomorphic to the polar cone; Farkas lemma from the Fourier-Motzkin elimination of Euler*; bipolar theorem |
| C95 | Tri4ti2* | RegularTriangulationWith4ti2.cpp, RegularTriangulation.cpp (random, biased, squared-length and prescribed heights), triangulateCone for 4ti2; 4ti2's ray computation and rank by contract; the loop over the facets is that of Triang.v | from the extreme rays of the dual of the lifted cone to the facet description used for C78 (small perturbations of an extreme ray), then the lower facets of C78; termination because a piece with all rays would make the heights linear; witnesses for equal, Delone and negative heights |
| C96 | Avoiding* | SubspaceAvoidingDecomposition.cpp; LLL by the contract of C79; the decomposition is that of Barvinok.v | an invertible integer matrix has no zero column; invariant of the search for the least row; induction over the decomposition; witnesses where no admissible vector lowers the index |
| C97 | Topcom* | TriangulationWithTOPCOM.cpp (HAVE_TOPCOM_BIN without HAVE_TOPCOM_LIB); the program as a function on texts; istream >> int as in Subcones.v, with good, get and peek | induction over the simplices printed; the stream shrinks with each simplex; order of rays of simplicial cones irrelevant; the loop for all triangulations can only end in an error |
| C98 | TrivialSubst* | TrivialSubst.cpp; the file func.rat of count.cpp as text; exit(1) as Exited, the text written before it is lost | the reader of GenFunSpec.v with white space between factors; Laurent polynomials pushed forward along the last coordinate; sums over a finite window of points of one height |
| C99 | Boundary* | BoundaryTriangulation.cpp: alpha_basis, the test, the search over integer combinations (IntComb.v), the completion; LLL as a parameter with U * alpha as its contract | normals of facets as vectors orthogonal to rays; every such normal is a multiple of the row computed with the adjugate, so its last coordinate is the entry of F; induction on the search with fuel |

Two lists at the end of this file say, for each source file, what is modelled, and what is not.

## Trusted base

* Coq's kernel (8.16.1) and the `coqc` that runs it. No axiom is declared anywhere in `rocq/theories`; every property
  theorem is followed by `Print Assumptions`, whose answer is "Closed under the global context" for every theorem unless the
  list below says otherwise.
* Files importing mathcomp's `ssreflect` load `Coq.ssr.ssrunder`, whose module type `Under_rel` shows up as seven fields in
  a listing of all constants of the *loaded* environment (`vcheck` reports them as library axioms); no theorem depends on them
  (`Print Assumptions` does not list them).
* The reading of the C++ source: the model is written by hand from the text of `/repo`, not extracted from or run against it.
  Every definition cites the lines it models.
* The following behaviour is *assumed*, each time as a parameter with an explicit hypothesis (a contract) in the statement of
  the theorem, together with an `Example` or theorem showing that the contract can be met:
  - vertices and tangent cones of the polytope (cddlib) – C72–C77, C65;
  - `triangulateCone` (triangulations triangulate / are made of simplicial cones) – C42, C43, C65, C72–C77; C78 derives this
    contract from that of cddlib's facet enumeration;
  - the short vector returned by `ComputeOmega` is a non-zero integer vector (primitive for dual decomposition), and the
    integer relation returned by NTL's kernel computation is a relation – C29, C30, C72–C76; C79 derives the former from:
    NTL's `LLL` returns a basis of the same lattice with its transformation matrix (reduced, where the theorem says so), and
    `LatticeSolve` finds a solution if there is one; C80 assumes only the contracts on the libraries;
  - `XGCD` returns Bézout coefficients – C32;
  - NTL's `determinant` is the determinant, `inv`/`solve` invert – used through the definition `det`;
  - decimal input/output of NTL `ZZ`, C++ streams on integers, `getline`, as written in `Text.v` and `LatteText.v`.
* Random numbers are an arbitrary stream, quantified over in each theorem.
* Modelling abstractions: NTL `ZZ`/GMP as unbounded integers; C `int` as unbounded except where a property speaks of
  overflow (C17, C36, C50, C57, C70); memory exhaustion, I/O errors and timing are outside the model; floating point is outside
  the model (the number of refinement steps of C28 is quantified over, `double` heaps of C08 exclude NaN).

## Source files

Generated by `tools/gen_files.py` from the comments of the model.

### Cited by the model

| file under `code/` | lines | Coq files |
|---|---|---|
| latte/CheckEmpty.cpp | 48-180, 64-79, 80-147, 90-92, 102-109, 124-130, 131-136, 149-180 | CheckEmpty |
| latte/ConeInfo.cpp | 36-470, 79-167, 86-107, 100-146, 187-296, 208-262, 208-230, 298-360, 362-374, 430-458, 471-623, 471-1020, 498-530, 667-692, 678, 679-690, 695-1020, 757-760, 762-806, 776-787, 813-955, 820-892, 905-952, 926-936, 1023-1336, 1070-1134, 1077-1098, 1086-1119, 1153-1236, 1156, 1168-1211, 1238-1287, 1289-1312, 1314-1330, 1338-1413, 1348-1384, 1369-1370, 1391-1413, 1415-1500, 1443-1470, 1473-1497 | Dig, DigHeap |
| latte/ConeInfo.h | 39-58, 83-152, 155-161 | Dig, DigHeap |
| latte/DualizationWith4ti2.cpp | 33-52, 33-97, 54-97, 64-78, 93-95 | Dualize |
| latte/ExponentialApprox.cpp | 33-154, 60-75, 84-91, 95-128, 130-153, 162-169, 171-196, 198-221, 354-405, 362-368, 370-402, 393-399 | Approx |
| latte/ExponentialEhrhart.cpp | 25-80, 25-32, 34-69, 50-62, 71-77 | Count, Exponential |
| latte/ExponentialSubst.cpp | 56-93, 82-92, 106-130, 150-176, 178-197, 184-190, 199-213, 199-237, 222-237 | Count, Exponential |
| latte/IntegralHull.cpp | 129-470, 167-213, 203, 234-398, 252-263, 283-297, 307-325, 335-345, 850-924 | Dig, Hull |
| latte/Irrational.cpp | 35-99, 157-179, 181-209, 217-239, 241-341, 276-284, 289-295, 351-370, 372-381, 383-408 | Barvinok, Irrational |
| latte/PolyTree.cpp | 131-412, 160-169, 228-235, 280-291, 293-303, 336-337, 354-388, 358-373, 377-384, 402-411, 415-436, 517-625, 517-546, 548-581, 619-625 | PolyTree |
| latte/PolyTree.h | 39-64, 60-63, 78-93 | PolyTree |
| latte/ProjectUp.cpp | 106-200, 106-194 | GenFun |
| latte/ReadLatteStyle.cpp | 34-198, 34-42, 55-84, 86-174, 102-108, 109-162, 116-117, 122-127, 140-145, 181-198 | LatteText |
| latte/ReadPolyhedron.cpp | 41-77, 79-136, 138-258, 307-310, 592-698, 649-653, 664, 668-697, 740-800, 776-790 | CountFile, GenFun, Options, OptionsSpec, VertexCones |
| latte/ReadSubcones.cpp | 30-255, 30-36, 50-65, 67-105, 87-104, 88-97, 135-145, 169-182, 199-210, 218-225, 234-255 | Subcones |
| latte/ReadSubcones.h | 28-79, 54-66 | Subcones |
| latte/Residue.cpp | 42-578, 115-126, 213-255, 216-233, 217-223, 220, 225-233, 239-242, 246-251, 270-307, 366-381, 384-386, 409-410, 446-549, 450-549, 582-955, 706-713, 835-926, 836-857, 838-842, 846-850, 851-855, 882-886, 887-891, 893-897, 911-919 | Residue, ResidueList |
| latte/TrivialSubst.cpp | 23-52, 36, 44-48, 44, 48, 54-66 | TrivialSubst |
| latte/VertexConesWith4ti2.cpp | 34-170, 45-64, 46-47, 57-64, 98-153, 118-139, 129-137 | VertexCones |
| latte/aggregation/aggregation.cpp | 36-130, 45-79, 94-128, 98-105, 121-123, 136 | Kannan, LatteText |
| latte/barvinok/ComputeOmega.cpp | 33-41, 33-185, 54-185 | Omega |
| latte/barvinok/SubspaceAvoidingDecomposition.cpp | 29-40, 42-110 | Avoiding |
| latte/barvinok/barvinok.cpp | 54-90, 149-183, 186-198, 206-267, 279-301, 286-294, 310-399, 317-318, 317-345, 348-350, 368-397, 375-384, 401-404, 401-424, 426-439, 441-554, 452-462, 509-519, 534-550, 535-543, 562-586, 570-579 | Avoiding, Barvinok, Count, Omega, Options, Residue |
| latte/barvinok/barvinok.h | see the comments | Barvinok |
| latte/barvinok/dec.cpp | 36-97, 48-56, 60-97, 119-162, 137-162, 143-156, 170-285, 182-199, 201-285 | Count, DigMain, Exponential, GenFun, Residue, ResidueMain |
| latte/binarySearchIP.cpp | 121-153, 174-203, 226-321, 293-309 | BinSearch |
| latte/buildPolytopes/BuildGraphPolytope.cpp | 23-38, 46-64 | Hyper |
| latte/buildPolytopes/BuildHypersimplexEdgePolytope.cpp | 27-96, 39-43, 55-60, 76-93, 79-80, 103-122, 112-115 | Hyper |
| latte/buildPolytopes/BuildPolytope.cpp | 43-47 | Hyper |
| latte/buildPolytopes/GraphMaker.cpp | 16-20, 28-42, 60-101, 112-146, 151-171, 176-233, 203-208, 215-230, 218-223, 240-258, 264-271, 276-286, 292-304, 310-365, 338-347, 351-363, 370-412, 394-407, 418-442, 448-477, 483-506 | Graph, Hyper |
| latte/buildPolytopes/GraphMaker.h | 33-36 | Graph |
| latte/cone.cpp | 32-37, 32-162, 40-45, 48-58, 61-68, 123-132 | ListOps |
| latte/cone.h | 44-98, 49-69 | ListOps, Piped, Subcones, Valuation |
| latte/cone_consumer.cpp | 35-46, 40-46 | ListOps, Triang, VertexCones |
| latte/convert.cpp | 61-80, 61-101 | Irrational, Omega |
| latte/convertCDD_ext_to_latte.cpp | see the comments | ConvertIne |
| latte/convertCDD_ine_to_latte.cpp | 18-65 | ConvertIne |
| latte/count.cpp | 69-341, 86-95, 86-341, 97-255, 99-190, 191-247, 263-308, 297-305, 310-319, 340-620, 350-620, 355-376, 362-376, 383-408, 416-620, 416-430, 472-500, 485-491, 493-496, 502-540, 502-620, 510-514, 513-530, 517-530, 537-544, 550-554, 563-574, 660-666, 664, 679-682 | Approx, Count, CountFile, GenFun, Options, OptionsSpec, Residue, ResidueMain, TrivialSubst, VertexCones |
| latte/dual.cpp | 41-62, 64-185, 64-141, 147-185, 148-190, 152-164, 159-161, 167-169, 224-278, 262-276, 280-312, 293-304 | Barvinok, Count, Dualize, Normalize, Options, Piped |
| latte/genFunction/IntCombEnum.cpp | 29-42, 51-53, 55-81, 64-74, 95-110 | IntComb |
| latte/genFunction/IntCombEnum.h | 36-44 | IntComb |
| latte/genFunction/maple.cpp | 27-157, 27-45, 32-40, 36-38, 47-81, 83-110, 145-157 | GenFun |
| latte/genFunction/matrix_ops.cpp | 26-53, 137-147, 137-398, 149-224, 191-200, 202-209, 226-277, 250-259, 261-265, 279-321, 283-288, 290-294, 316-320, 323-398, 336-394 | Options, Smith |
| latte/genFunction/piped.cpp | 53-440, 53-86, 104-207, 108-157, 128, 142-155, 215-232, 234-253, 255-274, 318-337, 331-334, 367-400, 402-440 | Piped, Smith |
| latte/genFunction/piped.h | see the comments | Piped |
| latte/heap.cpp | 31-54, 42-45, 46-48, 55-78, 66-69, 127-152, 155-170, 161, 171-186, 177, 219-237, 240-283, 288-327, 330-338, 341-352, 355-381, 384-434, 437-486, 458, 490-504, 507-512, 534-539 | Approx, Heap |
| latte/heap.h | 38-42, 44-55, 57-72 | Heap |
| latte/integration/GeneralMonomialSum.h | 67-121, 152-178, 186-203 | Trie |
| latte/integration/PolyTrie.cpp | 10-78, 10-445, 22-26, 41-75, 57-67, 82-109, 112-144, 113-144, 122-139, 152-246, 159-161, 193-245, 230-258, 235, 281-313, 294-305, 325-441, 335-337, 366-440, 417-433, 480-504, 480-614, 506-614, 559-610, 562-570, 573-608 | Integ, PolyText, PolyTextSpec, Trie |
| latte/integration/blockReps.h | 11, 38-43, 55-204, 55-125, 68-90, 76-81, 99-100, 102-105, 115-116, 117-120 | Block |
| latte/integration/burstTrie.h | 9 | Trie |
| latte/integration/consumers.h | 39-98, 71-77, 80-88 | PolyText |
| latte/integration/iterators.h | see the comments | Block, Trie |
| latte/integration/multiply.h | 35-66, 35-91, 50-61, 94-135 | Block, Trie |
| latte/integration/newIntegration.cpp | 126-242, 126-285, 146-148, 150-158, 163-209, 172-173, 176-178, 199-202, 211-215, 222-241, 236-241, 247-285, 269-273, 502-514 | Integ, Trie |
| latte/integration/residue.cpp | 7-27, 7-267, 11-18, 29-41, 36-39, 71-267, 94-113, 129-130, 139-144, 145-184, 150-160, 241-249, 251-258, 297-434, 333-342, 345-399, 365-379 | Integ, Perturb |
| latte/interpolation/PolynomialInterpolation.cpp | 16-34, 52-73, 65-69, 79-101, 103-173, 114-118, 153-168, 176-192, 208-217, 223-227, 232-238, 248-256 | Interp |
| latte/latte_4ti2.cpp | 26-44 | Dualize, Tri4ti2, VertexCones |
| latte/latte_4ti2_zsolve.cpp | 26-65, 28-64 | Dualize |
| latte/latte_cddlib.cpp | 42-65, 100-122 | CountFile, Triang |
| latte/latte_gmp.cpp | 34-45, 47-66, 73-79 | CountFile, Util |
| latte/latte_ntl.cpp | 27-33, 27-49, 51-60 | Irrational, Util |
| latte/latte_random.cpp | 35-40, 42-47 | Util |
| latte/maximize.cpp | 266, 404-412, 427-444, 435, 459-463, 464-480, 468, 469-474, 480 | Dig, DigMain, Hull, ResidueMain |
| latte/minimize.cpp | 267, 406-414, 462-466, 464-484, 483-484 | Dig, DigMain, Hull, ResidueMain |
| latte/normalize/normalize.cpp | 225-227, 265-266 | Dualize, Normalize |
| latte/preprocess.cpp | 77-182, 91-99, 101-179, 103-116, 125-134, 142-143, 146-155, 165-176, 174-175, 185-211, 185-605, 213-222, 243-279, 419-440, 519-549, 543-605, 545-560, 563-567 | CountFile, GenFun, Hermite, ListOps, Preproc |
| latte/ramon.cpp | 48-57, 66-72, 66-163, 75-84, 89-101, 142-163 | ListOps |
| latte/rational.cpp | 33-136, 33-44, 46-57, 59-65, 85-94, 116-136, 126-133, 139-514, 139-142, 144-148, 177-190, 195-222, 225-233, 236-239, 242-251, 242-246, 247-251, 253-256, 257-260, 262-267, 269-275, 277-290, 277-281, 285-289, 301-307, 301-312, 314-319, 324-348, 324-355, 351-375, 358-362, 364-375, 377-380, 382-385, 382-390, 407-410, 413-416, 418-432, 468-475, 478-514, 529-555, 529-592, 531, 563-592, 620-628, 662-700, 662-665, 669-700, 703-793, 787-792, 803-848, 803-815, 809-810, 811-813, 817-828, 831-848, 836-845 | CddText, Integ, RatFun, RatVec, Rational, Text, Trie, Valuation |
| latte/rational.h | 97-160, 99-105, 122-130, 141-145, 146-150, 168-243, 170-171 | RatVec, Rational |
| latte/timing.cpp | 31-83, 45-83 | Util |
| latte/timing.h | 27-40 | Util |
| latte/todd/todd-expansion.cpp | 24-33, 35-54, 45-52, 56-67, 69-83, 85-99, 101-124, 110-121 | Exponential |
| latte/top-knapsack/PeriodicFunction.cpp | 74-80, 99-109, 114-124, 149-160, 165-173, 178-188, 190-199, 209-212, 246-275, 347-348, 368-383, 385-398, 431-449, 451-462, 464-476, 478-489, 496-503 | Periodic, PeriodicSpec |
| latte/top-knapsack/PeriodicFunction.h | 46-76, 52 | Periodic |
| latte/top-knapsack/TopKnapsack.cpp | 37-49, 54-68, 58-62, 76-92, 139-170, 147-164, 157-160, 465-590, 647-670, 1242-1256, 1251-1252, 1253-1254, 1261-1269, 1276-1328, 1279-1313, 1284-1299, 1290-1296, 1305-1311, 1317-1325, 1335-1381, 1346-1347, 1349-1379, 1352-1355, 1362-1376 | Hermite, Knapsack |
| latte/top-knapsack/TopKnapsack.h | 39-47 | Knapsack |
| latte/triangulation/BoundaryTriangulation.cpp | 61-105, 76-82, 79-81, 107-128, 130-213, 141-143, 179-210, 187-209, 254-304, 267-284 | Boundary |
| latte/triangulation/RegularTriangulation.cpp | 43-49 | Tri4ti2, Triang |
| latte/triangulation/RegularTriangulationWith4ti2.cpp | 86-281, 98-109, 103-106, 111, 135-140, 152-161, 232-254, 284-306 | Tri4ti2 |
| latte/triangulation/RegularTriangulationWithCddlib.cpp | 30-45, 47-138, 64-71, 67-71, 91-132 | Triang |
| latte/triangulation/TriangulationWithTOPCOM.cpp | 114-155, 157-173, 177-191, 193-216, 206-214 | Topcom |
| latte/triangulation/triangulate.cpp | 43-88, 43-59, 60-88, 96-102, 96-110, 103-137, 172-176 | Options, Tri4ti2, Triang, Valuation |
| latte/valuation/Perturbation.cpp | 34-52, 37-536, 60-68, 79-86, 100-186, 122-129, 131-140, 147-178, 160-165, 169-176, 196-206, 202-220, 244-321, 338-366, 345-351, 394-442, 470-534, 480-519, 507-517 | Perturb |
| latte/valuation/Perturbation.h | 75-80, 82-91 | Perturb |
| latte/valuation/PolytopeValuation.cpp | 18-59, 18-491, 88-152, 121-144, 161-175, 184-191, 200-275, 227-251, 283-330, 336-343, 348-363, 366-379, 416-491, 427-438, 453-490, 640-730, 666-730, 686-714, 755-831, 788-829, 835-912, 846-857, 874-911, 1083-1281, 1083-1110, 1127-1160, 1180-1262, 1206-1256, 1213-1254, 1278-1281, 1375, 1390-1406, 1390-1451, 1412-1451 | Perturb, Valuation |
| latte/valuation/PolytopeValuation.h | see the comments | Valuation |
| latte/valuation/valuation.cpp | 411-764, 420-764, 437-648, 440-529, 530-573, 685-745, 796-866, 804-866, 1097-1128, 1097-1179, 1131-1179 | Options, OptionsSpec |
| latte/valuation/valuation.h | 130-146 | Options |
| latte/vertices/cdd.cpp | 122-146, 503-611, 538-556, 571-605, 580-586, 613-703, 875-914 | CddText |

### Not modelled

No definition of the model stands for anything in these files (headers that only declare what a modelled file defines are included here).

* `gnulib/`: alloca.in.h, alloca_.h, allocator.c, allocator.h, areadlink.c, areadlink.h, c-ctype.c, c-ctype.h, canonicalize-lgpl.c, canonicalize.h, careadlinkat.c, careadlinkat.h, dosname.h, errno.in.h, error.c, error.h, exitfail.c, exitfail.h, gettext.h, intprops.h, lstat.c, malloca.c, malloca.h, msvc-inval.c, msvc-inval.h, msvc-nothrow.c, msvc-nothrow.h, pathmax.h, progname.c, progname.h, progreloc.c, readlink.c, relocatable.c, relocatable.h, relocwrapper.c, setenv.c, setenv.h, stat.c, stdbool.in.h, stdbool_.h, stddef.in.h, stdint.in.h, stdlib.in.h, stdlib_.h, strerror-override.c, strerror-override.h, strerror.c, string.in.h, sys_stat.in.h, sys_types.in.h, time.in.h, unistd.c, unistd.in.h, unistd_.h, verify.h, xalloc-die.c, xalloc-oversized.h, xalloc.h, xmalloc.c, xreadlink.c, xreadlink.h
* `latte/`: CheckEmpty.h, CreateExample.cpp, DualizationWith4ti2.h, ExponentialApprox.h, ExponentialEhrhart.h, ExponentialSubst.h, Grobner.cpp, Grobner.h, IntegralHull.h, Irrational.h, LattException.cpp, LattException.h, Polyhedron.h, ProjectUp.h, ReadLatteStyle.h, ReadPolyhedron.h, ReadingFile.cpp, ReadingFile.h, ResSingle.cpp, Residue.h, RudyResNTL.cpp, RudyResNTL.h, TrivialSubst.h, VertexConesWith4ti2.h, banner.cpp, banner.h, binarySearch.cpp, binarySearchIP.h, cone_consumer.h, convert.h, copyright.cpp, count.h, countDriver.cpp, dual.h, ehrhart.cpp, ehrhart3.cpp, flags.h, latte2ext.cpp, latte2ine.cpp, latte_4ti2.h, latte_4ti2_zsolve.h, latte_cddlib.h, latte_gmp.h, latte_ntl.h, latte_ntl_integer.h, latte_random.h, latte_relocatable.cpp, latte_relocatable.h, latte_system.cpp, latte_system.h, polyhedron-to-cones.cpp, preprocess.h, print.cpp, print.h, ramon.h, tmpGro.cpp, tmpIP.cpp
* `latte/barvinok/`: ComputeOmega.h, SubspaceAvoidingDecomposition.h, Triangulation.cpp, Triangulation.h, dec.h
* `latte/buildPolytopes/`: BuildGraphPolytope.h, BuildHypersimplexEdgePolytope.h, BuildPolytope.h, BuildRandomPolynomials.cpp, BuildRandomPolynomials.h, BuildRandomPolytope.cpp, BuildRandomPolytope.h, Driver.cpp
* `latte/genFunction/`: NTL_to_LiDIA.cpp, NTL_to_LiDIA.h, ilio.cpp, maple.h, matrix_ops.h
* `latte/integration/`: PolyRep.cpp, PolyRep.h, PolyTrie.h, blockInt.cpp, burstInt.cpp, decompose.cpp, integrateDemo.cpp, integrateTest.cpp, multiplyTest.cpp, newIntegration.h, residue.h, versusMode.cpp
* `latte/interpolation/`: PolynomialInterpolation.h, testDriver.cpp
* `latte/normalize/`: ReductionTest.cpp, ReductionTest.h, ReductionTestWithCPLEX.cpp, ReductionTestWithCPLEX.h, check-representation.cpp, normaliz_wrapper.cpp, normalize_main.cpp
* `latte/sqlite/`: IntegrationDB.cpp, IntegrationDB.h, SqliteDB.cpp, SqliteDB.h, ValuationDBStatistics.h, VolumeDB.cpp, VolumeDB.h
* `latte/todd/`: gmp_pow.cpp, gmp_pow.h, test-todd.cpp, todd-expansion.h
* `latte/top-ehrhart/`: TopEhrhart.cpp, TopEhrhart.h
* `latte/top-knapsack/`: Driver.cpp, class.cpp
* `latte/triangulation/`: BoundaryTriangulation.h, RegularTriangulation.h, RegularTriangulationWith4ti2.h, RegularTriangulationWithCdd.cpp, RegularTriangulationWithCdd.h, RegularTriangulationWithCddlib.h, SpecialSimplex.cpp, SpecialSimplex.h, TriangulationWithTOPCOM.h, complete-boundary-triangulation.cpp, special-simplex.cpp, test-triangulation.cpp, triangulate-boundary.cpp, triangulate.h
* `latte/valuation/`: Driver.cpp, countLinearFormsFromPolynomialDriver.cpp, testLibraryExamples.cpp
* `latte/valuation/test/`: VolumeAndIntegrationTests.cpp, VolumeAndIntegrationTests.h, buildDatabaseRandomPolytopesDriver.cpp, fixDualPolytopesInDatabaseDriver.cpp, fixLawrenceValuationDriver.cpp, printDatabaseTimeTablesDriver.cpp, runIntegrationTestFromDatabaseDriver.cpp, runVolumeTestFromDatabaseDriver.cpp, testBuildPolytopes.cpp, testIntegrationHyperrectanglesDriver.cpp, testVolumeForSLDriver.cpp, testVolumeHypersimplexDriver.cpp
* `latte/vertices/`: cdd.h
* `test-suite/`: set-max-cpu-time.c
