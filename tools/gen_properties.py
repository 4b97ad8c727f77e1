#!/usr/bin/env python3
"""Writes /verif/properties.jsonl (the list is kept here so it stays easy to edit)."""
import json
P=[]
def p(id,title,statement,quantifier,why,anchors):
    P.append(dict(id=id,title=title,statement=statement,quantifier=quantifier,why_tests_cant=why,
                  anchors=[dict(file="code/latte/"+f,symbols=s) for f,s in anchors]))
INF="The domain is infinite; a test samples finitely many values."
HIST="The claim is about every finite sequence of calls; tests run a few sequences."
p("C01","Exact rational arithmetic stays canonical and exact",
 "Every RationalNTL obtained from a constructor (non-zero denominator) by any sequence of add, sub, mult, div (by a non-zero object other than itself), powers, assignments and sign changes is in lowest terms with a positive denominator and equals the exact mathematical rational of the same expression; consequently two such objects compare equal exactly when their mathematical values are equal.",
 "all integers as numerators and denominators, all finite expressions over the operations",INF+" Canonicity is an invariant of every reachable object.",
 [("rational.cpp",["RationalNTL::canonicalize","RationalNTL::add","RationalNTL::sub","RationalNTL::mult","RationalNTL::div","RationalNTL::operator=="]),("rational.h",["RationalNTL"])])
p("C02","Rational powers are exact for every integer exponent",
 "power(r,e) equals r multiplied by itself e times for e>=0 and its reciprocal for e<0 (r non-zero); e<0 on zero is rejected, never answered.",
 "all rationals r and all integer exponents e",INF,[("rational.cpp",["RationalNTL::power"])])
p("C03","A printed rational reads back as the same rational",
 "Writing a RationalNTL with operator<< and constructing a RationalNTL from that text (string constructor) gives back an equal object.",
 "all RationalNTL values",INF,[("rational.cpp",["operator <<","RationalNTL::RationalNTL"])])
p("C04","A zero denominator never turns into a number",
 "Creating a rational with denominator zero, or dividing by zero, must not silently yield an ordinary number.",
 "all numerators",INF+" The failing case is an error path that regular use does not exercise.",[("rational.cpp",["RationalNTL::canonicalize","RationalNTL::div"])])
p("C05","Scaling a rational vertex to integers is exact under every history of edits",
 "At any time, scaling a rational vector v to an integer vector yields (w,s) with s non-zero (positive for positive denominators) and w = s*v exactly, no matter in which order entries, numerators and denominators were set before and whether the scale was cached; if the coordinates are in lowest terms, s is the least such factor (it divides every t with t*v integral).",
 "all histories of set_entry (lazy or not), set_numerator, set_denominator, scalarMultiplication, canonicalisation, normalisation and scaling calls, all dimensions and entries",HIST+" The cache makes the result depend on the history.",
 [("rational.h",["rationalVector"]),("rational.cpp",["scaleRationalVectorToInteger","rationalVector::compute_integer_scale","canonicalizeRationalVector"])])
p("C06","Edge directions are primitive",
 "constructRay(v,w) returns the primitive integer vector (gcd of entries 1) that is a positive multiple of w-v.",
 "all pairs of distinct rational points of equal dimension",INF,[("rational.cpp",["constructRay"])])
p("C07","Normalising a rational vector clears denominators without changing direction",
 "normalizeRationalVector returns a vector with all denominators one that is a positive multiple of its argument.",
 "all rational vectors with positive denominators",INF,[("rational.cpp",["normalizeRationalVector"])])
p("C08","The heap is a priority queue",
 "After any sequence of inserts, pops, change-top and clears the top of a heap is a least (min-heap) or greatest (max-heap) stored weight, and the stored entries are exactly those inserted and not yet removed; popping to exhaustion yields a sorted sequence.",
 "all capacities and all finite sequences of operations within capacity",HIST,[("heap.cpp",["heap_insert","heap_pop","heap_top","bubble_up","percolate_down","heap_change_top_intweight"])])
p("C09","Freezing and thawing a heap loses nothing and restores order",
 "While frozen, inserts only accumulate; thaw restores the priority-queue order over exactly the accumulated entries, from any frozen state.",
 "all entry sequences inserted while frozen, at every size",HIST,[("heap.cpp",["heap_freeze","heap_thaw"])])
p("C10","The polynomial trie is a finite map from exponent vectors to coefficients",
 "After any sequence of insertions into a monomial sum (burst trie), at least one of them with a non-zero coefficient, iterating yields every (degree, exponent vector) whose inserted coefficients sum to a non-zero value exactly once, with that sum, and yields nothing else; monomials come in strictly increasing lexicographic order.",
 "all finite sequences of term insertions of a fixed number of variables",HIST+" Bursting and range growth depend on the order of insertion.",
 [("integration/burstTrie.hpp",["BurstTrie::insertTerm","BurstContainer::insertTerm","BurstTerm::lessThan"]),("integration/iterators.hpp",["BTrieIterator"])])
p("C11","Block storage of monomials keeps the represented polynomial",
 "Inserting monomials into the block representation and iterating returns every inserted exponent vector once, in the order of first insertion, with the sum of its coefficients, across block boundaries.",
 "all finite sequences of insertions, any number of variables",HIST,[("integration/blockReps.h",["_insertMonomial","_insertLinForm"]),("integration/iterators.hpp",["MBlockIterator","LBlockIterator"])])
p("C12","A printed polynomial parses back to the same polynomial",
 "printMonomials followed by loadMonomials yields a representation of the same polynomial.",
 "all non-empty polynomials",INF,[("integration/PolyTrie.cpp",["loadMonomials","parseMonomials","printMonomials"])])
p("C13","Truncated polynomial product",
 "multiply(p,q,min,max) yields exactly the terms of the mathematical product p*q whose every exponent lies in the given box.",
 "all polynomials and all boxes",INF,[("integration/multiply.h",["multiply"])])
p("C14","Block product multiplies all terms",
 "The block-representation multiply yields the product of all terms of both factors.",
 "all polynomials in block representation",INF,[("integration/multiply.h",["multiply"])])
p("C15","Monomial to powers of linear forms is an identity",
 "The linear forms and coefficients produced by decomposing a monomial c*x^M satisfy sum coef_l * <l,x>^|M| / |M|! = c*x^M for every x.",
 "all exponent vectors M, all coefficients c, all points x","The number of linear forms grows with the product of exponents; the identity is over all points x.",
 [("integration/PolyTrie.cpp",["decompose"]),("integration/PolyRep.cpp",["_decompose"])])
p("C16","Integral of a power of a linear form over a simplex",
 "For a simplex whose vertices give pairwise different values of the linear form, the accumulated fraction equals the sum over vertices of <l,s_i>^(m+d)/prod_j(<l,s_i>-<l,s_j>) times the simplex volume, exactly, whatever order terms are accumulated and reduced in.",
 "all dimensions, simplices and linear forms",INF,[("integration/newIntegration.cpp",["update","integrateLinFormSum"])])
p("C17","Integer powers and binomial coefficients are exact",
 "Power_ZZ(a,b) equals a^b and AChooseB(a,b) equals the binomial coefficient.",
 "all integers a, all b in the supported range",INF,[("integration/residue.cpp",["Power_ZZ","AChooseB"])])
p("C18","Residues of repeated factors",
 "The product of truncated power series used for repeated vertices equals the coefficient of the mathematical series product.",
 "all series lengths and coefficients",INF,[("integration/residue.cpp",["computeResidue"])])
p("C19","Polynomial interpolation is exact",
 "After adding d+1 points with pairwise different abscissae, solve returns the unique polynomial of degree at most d through all of them; with a repeated abscissa it must report failure rather than return or crash.",
 "all degrees and all point sets",INF,[("interpolation/PolynomialInterpolation.cpp",["addPoint","GE","solve","evaluatePoly"])])
p("C20","Todd polynomials are the coefficients of the generating series",
 "evaluate_todd(x_1..x_n) returns the coefficients up to degree n of prod x_i t/(1-exp(x_i t)) (the sign convention of the code), also for zero or repeated arguments.",
 "all dimensions and arguments",INF,[("todd/todd-expansion.cpp",["taylor_for_todd","taylor_product","taylor_reciprocal","evaluate_todd"])])
p("C21","Periodic-function arithmetic preserves meaning",
 "Adding, subtracting, multiplying and raising periodic functions yields expressions denoting the pointwise sum, difference, product and power at every argument.",
 "all expression trees and all arguments",INF+" Constant folding rewrites trees, so each combination of shapes matters.",[("top-knapsack/PeriodicFunction.cpp",["PeriodicFunction::add","PeriodicFunction::times","PeriodicFunction::pow","PeriodicFunction::div"])])
p("C22","Moebius values form an inclusion-exclusion over the stored gcds",
 "After computing, for every stored value f the sum of the Moebius values of all stored multiples of f is one, and missing gcd 1 is reported.",
 "all finite sets of positive gcds closed as inserted, in any insertion order",HIST,[("top-knapsack/TopKnapsack.cpp",["MobiusList::insertGCD","MobiusList::computeMobius"])])
p("C23","All sub-list gcds are found",
 "The list of gcds built for the knapsack is exactly the set of gcds of non-empty sublists that qualify, with no repetition, whichever of the two enumeration methods is used.",
 "all coefficient lists",INF,[("top-knapsack/TopKnapsack.cpp",["everyGCDFromEntireList","everyGCDFromSubsets"])])
p("C24","Bernoulli numbers are correct",
 "The table of Bernoulli numbers satisfies the defining recurrence at every index (odd ones beyond the first included).",
 "all table lengths",INF,[("top-knapsack/TopKnapsack.cpp",["BernoulliFirstKind::setBernoulli"])])
p("C25","Integer-combination enumeration is complete and duplicate-free",
 "Repeated getNext returns every vector k with 0<=k_i<=u_i exactly once and then reports the end forever.",
 "all lengths >= 1 and all non-negative bounds",HIST,[("genFunction/IntCombEnum.cpp",["IntCombEnum::getNext","IntCombEnum::is_last"])])
p("C26","Points of the fundamental parallelepiped",
 "For a simplicial cone with given vertex the returned points are integral, pairwise different, lie in the half-open fundamental parallelepiped at the vertex, and every integer point there is returned.",
 "all dimensions, all cones with non-zero determinant, all rational vertices",INF,[("genFunction/piped.cpp",["PointsInParallelepipedGenerator","pointsInParallelepiped"])])
p("C27","Facets and determinant of a simplicial cone are dual to its rays",
 "After computing facets, <ray_i,facet_j> is zero for i!=j and minus the i-th facet divisor for i=j, facets are primitive, and divisors are positive.",
 "all dimensions and all linearly independent integer rays",INF,[("dual.cpp",["computeDetAndFacetsOfSimplicialCone","dualizeCone"])])
p("C28","Irrationalising a cone keeps its lattice points",
 "The shifted cone contains exactly the same integer points as the original one, and the internal consistency assertion can not fire.",
 "all simplicial cones and rational vertices",INF,[("Irrational.cpp",["irrationalizeCone","computeConeStabilityCube_simplicial","simplifyConeStabilityCube","assertConesIntegerEquivalent","isConeIrrational"])])
p("C29","One signed decomposition step preserves the cone",
 "At every point not on a boundary hyperplane, the signed count of the child cones containing it equals one if the point is in the parent cone and zero otherwise.",
 "all dimensions, cones, splitting vectors and generic points",INF,[("barvinok/barvinok.cpp",["barvinokStep","CheckOmega","computeAndCheckDeterminants"])])
p("C30","The whole signed decomposition preserves the cone and terminates",
 "The recursive decomposition terminates, delivers only cones of index at most the requested maximum, each child once, and the signed count of the delivered cones at generic points equals the indicator of the original cone.",
 "all cones, all (valid) short-vector choices, all maximal indices",HIST,[("barvinok/barvinok.cpp",["barvinok_DFS","deliver_cone"])])
p("C31","Hermite reduction is a unimodular transformation",
 "ihermite returns U invertible over the integers such that U times the input equals the output up to the recorded column exchanges, the output is upper triangular in its first columns, and the exchanges are mirrored in the right-hand side; it always terminates.",
 "all integer matrices of any shape",INF,[("preprocess.cpp",["ihermite"])])
p("C32","Smith normal form transforms are consistent",
 "SmithNormalForm(A,L,R) returns a diagonal S with L*A*R = S and L, R invertible over the integers.",
 "all non-singular integer matrices",INF,[("genFunction/matrix_ops.cpp",["SmithNormalFormIlio","diagonalizationIn","eliminationRow","eliminationCol"])])
p("C33","Aggregating equations keeps the non-negative integer solutions",
 "A non-negative integer point (with its slacks) satisfies the aggregated equation iff it satisfies every aggregated row.",
 "all matrices accepted by the program",INF,[("aggregation/aggregation.cpp",["KannanAggregation"])])
p("C34","Binary search returns the integer optimum",
 "For a feasible bounded problem the value found is the maximum of the cost over integer points, for every consistent counting oracle, and the printed value has the sign of the user's problem.",
 "all cost ranges and all feasible sets",INF,[("binarySearchIP.cpp",["binarySearch"])])
p("C35","Comparing point lists",
 "isEqual(first,second) holds exactly if both lists contain the same points; membership reports whether the vector occurs in the list.",
 "all lists of vectors",INF,[("ramon.cpp",["isEqual","isVectorInListVector","isVectorEqualToVector"])])
p("C36","Big-integer conversions are lossless",
 "Converting between the two big-integer types and back is the identity, including negative numbers and zero.",
 "all integers",INF,[("latte_gmp.cpp",["convert_ZZ_to_mpz","convert_mpz_to_ZZ"])])
p("C37","LattE-format matrices survive a write/read cycle",
 "Writing a matrix with its linearity set and reading it back yields the same matrix and set; keywords add exactly the stated constraints.",
 "all matrices, linearity sets and keyword lists",INF,[("ReadLatteStyle.cpp",["ReadLatteStyleMatrix","WriteLatteStyleMatrix","add_nonnegativity"])])
p("C38","Timers add up",
 "The elapsed time of a timer is the sum over completed start/stop intervals since the last clear, for every legal call history, and illegal calls are rejected.",
 "all call histories and clock readings",HIST,[("timing.cpp",["Timer::start","Timer::stop","Timer::clear"])])
p("C39","Generated graphs have the advertised shape",
 "Spanning trees are trees, random connected graphs are simple, connected and have the requested number of edges, and the fixed families have exactly the advertised edges - for every outcome of the random generator.",
 "all sizes and all random choices","Random choices make each run different.",[("buildPolytopes/GraphMaker.cpp",["makeRandomSpanningTree","makeRandomConnectedGraph","makeCheckerboard","makeCircleGraph","makeLinearGraph","addEdgeInOrder"])])
p("C40","Taylor expansion of generating-function trees",
 "Expanding an expression tree yields the truncated power series of the denoted polynomial (and, for quotients, the scaled and rounded-down series coefficients); a cached expansion equals a fresh one as long as the scale is kept and the degree does not grow (a growing degree reads stale coefficients).",
 "all trees, all degrees",INF,[("PolyTree.cpp",["PolyTree_Node::Taylor_Expansion","T_Node::Taylor_Expansion"])])
p("C41","Ehrhart coefficients agree with direct counting of dilations",
 "For lists of full-dimensional simplicial cones, the polynomial accumulated over cones, evaluated at any dilation t, equals the exponential-residue sum computed for the t-dilated cones, however many non-generic vectors were tried before; cones with fewer rays than variables make the code read past its weights.",
 "all cone lists, generic vectors and dilations",INF,[("ExponentialEhrhart.cpp",["Exponential_Ehrhart_Parameters::ConsumeCone"]),("ExponentialSubst.cpp",["computeExponentialResidueWeights","compute_sums_of_scalar_powers"])])
p("C42","Dilation bookkeeping in valuations",
 "Dilating the polytope by k and the integrand correspondingly and dividing by the Jacobian leaves the integral unchanged.",
 "all dilation factors, dimensions and linear forms",INF,[("valuation/PolytopeValuation.cpp",["dilateLinearForms","dilatePolynomialToLinearForms","findDilationFactorOneCone","dilatePolytopeOneCone"])])
p("C43","Volume from cone determinants",
 "The volume reported for a triangulated homogenised polytope equals the sum of the simplex volumes.",
 "all triangulations and dimensions",INF,[("valuation/PolytopeValuation.cpp",["findVolumeUsingDeterminant","convertToOneCone"])])
p("C44","Collecting equal perturbation factors keeps the product",
 "Merging equal linear factors (constant + epsilon terms) before taking residues leaves the represented rational function unchanged.",
 "all lists of factors",INF,[("valuation/Perturbation.cpp",["LinearLawrenceIntegration::updatePowers"])])
p("C45","Eliminating equations keeps the lattice points",
 "After preprocessing, the integer points of the reduced problem correspond one-to-one to the integer points of the original problem, and a problem whose equations determine a unique integer point satisfying the inequalities is counted as one.",
 "all systems of equations and inequalities",INF,[("preprocess.cpp",["preprocessProblem","checkListVector"])])
p("C46","Removing redundant constraints only removes redundant constraints",
 "checkListVector drops only constraints that every point satisfies.",
 "all constraint lists",INF,[("preprocess.cpp",["checkListVector"]),("ramon.cpp",["removeListVector"])])
p("C47","Cone consumers see every produced cone once",
 "Collecting, counting and transducing consumers receive each produced cone exactly once and keep all of them in reverse order of production; copying and appending lists keeps contents.",
 "all cone sequences and consumer chains",HIST,[("cone_consumer.cpp",["CollectingConeConsumer","CompositeConeProducer"]),("cone.cpp",["copyListCone","appendListCones","copyListVector"])])
p("C48","Repeated monomials in the input are harmless",
 "A polynomial in which a monomial is written twice is integrated like the polynomial with the coefficients added.",
 "all polynomials with repeated monomials",HIST,[("valuation/PolytopeValuation.cpp",["dilatePolynomialToLinearForms"]),("integration/burstTrie.hpp",["BurstContainer::insertTerm"])])
p("C49","Products of linear forms keep every factor",
 "Storing a product of powers of linear forms keeps all factors, including repeated ones and a zero coefficient.",
 "all products of linear forms",INF,[("integration/PolyTrie.cpp",["parseLinFormProducts","insertLinForm"])])
p("C50","Random integers stay in range",
 "uniform_random_number(from,to) lies between from and to and every value is attainable.",
 "all ranges and all outcomes of the generator",INF,[("latte_random.cpp",["uniform_random_number"])])
p("C51","Dividing a rational object by itself gives one",
 "r.div(r) leaves the value 1 in r for every non-zero r (the in-place operations take their operand by reference, so the operand may be the object itself).",
 "all non-zero rationals",INF+" Aliasing of the operand with the object is a calling pattern tests rarely use.",[("rational.cpp",["RationalNTL::div"])])
p("C52","Inner products of rational vectors are exact",
 "innerProduct(v,w) is the exact sum of products, in lowest terms, for equally long vectors, and is rejected for different lengths.",
 "all pairs of vectors of all lengths",INF,[("rational.cpp",["vec_RationalNTL::innerProduct"])])
p("C53","The hand-written gcd is the gcd and terminates",
 "myGCD(a,b) returns the non-negative greatest common divisor for integers of any sign, including zero, and always ends.",
 "all pairs of integers",INF,[("rational.cpp",["RationalNTL::myGCD"])])
p("C54","Editing one coordinate or scaling a rational vector changes exactly what it says",
 "set_entry changes only the named coordinate; canonicalisation keeps every coordinate's value and brings it to lowest terms; scalarMultiplication multiplies every coordinate by the given fraction.",
 "all reachable vectors and arguments",HIST,[("rational.h",["rationalVector::set_entry"]),("rational.cpp",["canonicalizeRationalVector","rationalVector::scalarMultiplication"])])
p("C55","Dilated constraints describe the dilated polytope",
 "After dilating the right-hand sides by a positive factor t, a point satisfies the constraints exactly if the point divided by t satisfied the original ones.",
 "all constraint lists, dilation factors and points",INF,[("preprocess.cpp",["dilateListVector"])])
p("C56","Interior constraints select interior lattice points",
 "The integer points satisfying the 'interior' version of the constraints are exactly those satisfying every original constraint strictly.",
 "all constraint lists and integer points",INF,[("preprocess.cpp",["Interior"])])
p("C57","Conversion to machine integers never truncates",
 "convert_ZZ_to_int returns exactly the given number or aborts; it aborts exactly for absolute values above INT_MAX.",
 "all integers",INF,[("latte_ntl.cpp",["convert_ZZ_to_int"])])
p("C58","Modular inner products are reduced and congruent",
 "InnerProductModulo(a,b,m) is the representative in [0,m) of the inner product for every positive m and vectors with entries of any sign.",
 "all vectors and moduli",INF,[("latte_ntl.cpp",["InnerProductModulo"])])
p("C59","Polynomial objects compute with polynomials",
 "After any sequence of insertMonomial, add and multiply (truncated to a box) calls on polynomial objects (GeneralMonomialSum), each object represents the polynomial the calls describe: term count 0 means the zero polynomial, otherwise iterating it delivers each monomial with non-zero coefficient exactly once with its exact coefficient.",
 "all finite histories of operations on any number of objects over a fixed number of variables, all rational coefficients",HIST,[("integration/GeneralMonomialSum.h",["GeneralMonomialSum::multiply","GeneralMonomialSum::add","GeneralMonomialSum::insertMonomial"]),("integration/multiply.h",["multiply"])])
p("C60","Integral of a polynomial over a simplex",
 "Integrating a polynomial over a simplex by decomposing it into powers of linear forms returns exactly the integral (the value of every linear functional that integrates powers of linear forms correctly), in lowest form with positive denominator.",
 "all polynomials, all simplices",INF,[("integration/newIntegration.cpp",["integrateMonomialSum","integrateLinFormSum","update"]),("integration/PolyTrie.cpp",["decompose"])])
p("C61","Lattice bases for periodic parts are bases",
 "For coefficients alpha and a number f, findLatticeBasis returns vectors that generate exactly the integer vectors x for which f divides alpha.x, each in one way only.",
 "all non-empty coefficient vectors, all non-zero f",INF,[("top-knapsack/TopKnapsack.cpp",["TopKnapsack::findLatticeBasis"])])
p("C62","Vertices of the periodic part solve the congruence",
 "findVertex returns an integer vector v with alpha.v congruent to 1 modulo f whenever alpha and f have no common factor.",
 "all coefficient vectors and f with gcd 1",INF,[("top-knapsack/TopKnapsack.cpp",["TopKnapsack::findVertex"])])
p("C63","Counting by exponential residues is exact",
 "Whenever the rational generating functions of the cones sum to the generating polynomial of a finite point set, the exponential-residue method returns exactly its number of points: the final integrality assertion never fires and the answer does not depend on which generic vectors are guessed. Likewise the Ehrhart polynomial at t counts the points generated by the t-dilated cones.",
 "all dimensions, cone lists, point sets and sequences of guessed vectors that contain a generic one",INF,[("ExponentialSubst.cpp",["computeExponentialResidueWeights","computeExponentialResidue_Single","computeExponentialResidue"]),("ExponentialEhrhart.cpp",["Exponential_Ehrhart_Parameters::ConsumeCone"]),("todd/todd-expansion.cpp",["evaluate_todd"])])
p("C64","The node pool never hands out a node in use",
 "After any history of allocations, resets and writes, the next node handed out has not been handed out since the last reset, is marked as not yet expanded, has room for all coefficients, and no other node is changed.",
 "all histories of pool operations",HIST,[("PolyTree.cpp",["Node_Controller::Get_PolyTree_Node","Node_Controller::Reset","Node_Controller::Node_Controller"])])
p("C65","Integration over tangent cones",
 "Integrating powers of linear forms through the tangent cones of a polytope returns exactly the signed cone sum (constant terms of the perturbed cone contributions), whichever perturbation was drawn; for a polytope with integer vertices, with its simplicial tangent cones and rays in any order and of any length, this is exactly its integral. The search for a perturbation ends.",
 "all dimensions, cone lists, linear forms, degrees from 1, and random number sequences",INF,[("valuation/Perturbation.cpp",["LinearPerturbationContainer::findPerturbation","LinearLawrenceIntegration::integrateTerm","LinearLawrenceIntegration::computeDotProducts"]),("integration/residue.cpp",["computeResidueLawrence"]),("valuation/PolytopeValuation.cpp",["PolytopeValuation::findIntegralUsingLawrence"])])
p("C66","Several questions to one polytope",
 "A polytope valuation object answers any sequence of questions (volumes, integrals) with the same right values, whatever was asked before.",
 "all polytopes and all sequences of calls on one object",HIST,[("valuation/PolytopeValuation.cpp",["findVolume","findIntegral","findIntegralPolynomialToLinearForms","triangulatePolytopeCone","dilatePolytopeOneCone","dilatePolytopeVertexRays"])])
p("C67","A text of powers of linear forms is loaded as that sum and printed back",
  "Loading the text [[c, [d, [l]]], ...] gives an object standing for the sum of c*l^d; printing it and loading the text again gives an equal object.",
  "all sums of powers of linear forms with at least one non-zero coefficient", INF,
  [("integration/PolyTrie.cpp",["loadLinForms","parseLinForms","printLinForms"])])
p("C68","A rational inserted into a stream is extracted again",
  "operator>> after operator<< gives an equal RationalNTL and leaves what follows in the stream; a number may carry a sign.",
  "all RationalNTL values and all following texts", INF,
  [("rational.cpp",["operator >>","RationalNTL::readNumber","operator <<"])])
p("C69","Random disconnected graphs fall into two halves",
 "A random disconnected graph is simple, has the requested number of edges and no edge between the two halves of its vertices, for every outcome of the random generator, and the generator ends for every request.",
 "all sizes, edge counts and random choices","Random choices make each run different.",[("buildPolytopes/GraphMaker.cpp",["makeRandomDisconnectedGraph","addEdgeInOrder"])])
p("C70","Hypersimplices and Kneser graphs are complete",
 "The hypersimplex points generated for n and k are exactly the 0/1 vectors of length n with k ones, each once and with a leading 1; the Kneser graph on them is simple and joins exactly the disjoint subsets.",
 "all dimensions and subset sizes",INF,[("buildPolytopes/BuildHypersimplexEdgePolytope.cpp",["addToPoints","generatePoints"]),("buildPolytopes/GraphMaker.cpp",["makeKneserGraph","nchoosek"])])
p("C71","Edge polytopes have the points of their graph",
 "The edge polytope of a graph has exactly one point e_a+e_b per edge, the symmetric edge polytope exactly the points e_a-e_b and e_b-e_a, with a leading 1.",
 "all graphs",INF,[("buildPolytopes/BuildGraphPolytope.cpp",["findEdgePolytope","findSymmetricEdgePolytope"]),("buildPolytopes/BuildPolytope.cpp",["addPoint"])])
p("C72","The number of integer points is right",
 "Counting the integer points of a polytope given by inequalities, with the exponential substitution and dual, irrational primal or irrational all-primal decomposition, returns exactly the number of integer points, whatever the maximal index of the cones, the triangulations, the short vectors and the random generic vectors.",
 "all dimensions, polytopes (rational, not necessarily simple), options, triangulations, short vectors and random vectors",INF,[("count.cpp",["mainCountDriver"]),("dual.cpp",["computeTightInequalitiesOfCones","dualizeCone"]),("barvinok/dec.cpp",["barvinokDecomposition_List"]),("barvinok/barvinok.cpp",["barvinokDecomposition_Single","barvinok_DFS"]),("ExponentialSubst.cpp",["decomposeAndComputeExponentialResidue","Exponential_Single_Cone_Parameters::ConsumeCone"])])
p("C73","The Ehrhart polynomial counts the dilations",
 "For a polytope with integer vertices the coefficients returned form a polynomial whose value at every t >= 1 is the number of integer points of the t-fold polytope; for a polytope with a non-integer vertex an exception is thrown.",
 "all dimensions, polytopes, dilations, options, triangulations, short vectors and random vectors",INF,[("count.cpp",["mainCountDriver"]),("ExponentialEhrhart.cpp",["Exponential_Ehrhart_Parameters::ConsumeCone","decomposeAndComputeEhrhartPolynomial"])])
p("C74","The multivariate generating function is right",
 "With --multivariate-generating-function, the text written for a polyhedron with at least one vertex is a well-formed expression in x[0], x[1], ... whose expansion is the generating function of the integer points; for a polytope, its value wherever the denominators do not vanish is the sum of the monomials of the integer points.",
 "all dimensions, polyhedra with vertices (bounded or not), options, triangulations, short vectors and values of the variables",INF,[("count.cpp",["mainCountDriver"]),("genFunction/maple.cpp",["writeTermToFile","writeTermOfGeneratingFunctionToFile","createGeneratingFunctionAsMapleInput","GeneratingFunctionWritingConeConsumer::ConsumeCone"])])
p("C75","The generating function is lifted back through the equations",
 "For a polytope given by equations and inequalities, possibly dilated, the text written is an expression in the original variables for the integer points of the original system.",
 "all systems of equations and inequalities, dilations, options and values of the variables",INF,[("ProjectUp.cpp",["ProjectUp2","ProjectingUpConeTransducer::ConsumeCone"]),("ReadPolyhedron.cpp",["ReadPolyhedronData::projectOutVariables"]),("preprocess.cpp",["preprocessProblem"])])
p("C76","The default counting method is right",
 "Counting the integer points of a polytope with the polynomial substitution in memory saving mode (the default of count) returns exactly the number of integer points: the fixed-point accumulation of the residues of the cones never changes the rounded result.",
 "all dimensions, polytopes, numbers of cones, options, triangulations, short vectors and random vectors",INF,[("Residue.cpp",["Residue_Single_Cone"]),("barvinok/dec.cpp",["decomposeAndComputeResidue","Standard_Single_Cone_Parameters::ConsumeCone"]),("count.cpp",["mainCountDriver"])])
p("C77","The cone method computes volumes and integrals of rational polytopes",
 "For a bounded polytope with rational vertices given by its tangent cones, the volume by the cone method is exactly the volume, the integral of a sum of powers of linear forms or of a polynomial with different monomials is exactly the integral (limits of Riemann sums), in lowest terms, whatever rand() returns; dilating to integer vertices, triangulating and drawing again do not change the result. The only other outcome is that the program is still drawing random vectors.",
 "all dimensions, rational polytopes, triangulations, polynomials, sums of powers of linear forms and random number sequences",INF,[("valuation/PolytopeValuation.cpp",["PolytopeValuation::findVolumeUsingLawrence","PolytopeValuation::findVolume","PolytopeValuation::findIntegral","PolytopeValuation::findIntegralPolynomialToLinearForms","PolytopeValuation::triangulatePolytopeVertexRayCone","PolytopeValuation::dilatePolytopeVertexRays"])])
p("C78","Triangulations triangulate",
 "Triangulating a full-dimensional pointed or non-pointed cone with cddlib (random or Delone heights), the cones delivered are generated by linearly independent subsets of the given rays, cover the cone, and no two overlap in an open set; with --nonsimplicial-subdivision the same without independence. In particular the cone of outer normals at a vertex is triangulated. The only other outcomes are an error reported by cddlib and a recursion that has not ended.",
 "all dimensions, lists of rays, options, maximal heights, random number sequences and answers of cddlib that describe the lifted cone",INF,[("triangulation/RegularTriangulationWithCddlib.cpp",["triangulate_cone_with_cddlib","cone_from_ray_set"]),("triangulation/RegularTriangulation.cpp",["random_height","biased_random_height","delone_height"]),("triangulation/triangulate.cpp",["triangulateCone"])])
p("C79","Short vectors for the decomposition are primitive, best possible and short",
"For a cone with independent rays, the vector that ComputeOmega chooses is an integer vector without common divisor; the first choice minimises the largest index among the rows of the transformation matrix, the second among all their combinations with coefficients from -5 to 4 (below 1000000 and 100000000); if NTL's basis is LLL-reduced, both lower the index when it is large, and up to dimension 5 at least one always does, so that decomposition never stops on an assertion there. The only failure is the overflow of an int counter from dimension 10 on.",
"all dimensions, all cones with independent rays, all lattice bases LLL may return",INF,[("barvinok/ComputeOmega.cpp",["ComputeOmega","norm"]),("barvinok/barvinok.cpp",["barvinokStep"]),("convert.cpp",["createFacetMatrix"])])
p("C80","count is right with LattE's own triangulation and short vectors",
"For a polytope given by inequalities and its vertices, count with dual decomposition, the regular triangulation with cddlib and LattE's choice of short vectors, relying only on what the libraries (cddlib, NTL, rand) promise: whatever number is returned is the number of integer points; up to dimension 5, with a reducing LLL, a number is returned as soon as one of the vectors tried avoids finitely many hyperplanes.",
"all polytopes, all results the libraries may give, all streams of random numbers",INF,[("count.cpp",["main"]),("barvinok/barvinok.cpp",["barvinokDecomposition_Single","barvinokStep"]),("barvinok/ComputeOmega.cpp",["ComputeOmega"]),("triangulation/RegularTriangulationWithCddlib.cpp",["triangulate_cone_with_cddlib"])])
p("C81","count obeys its command line",
 "Every option that the help text lists has the effect the help text gives, the last one counts, options may stand in any order, the one remaining argument is the input file, and everything else (unknown options, no input, two inputs, bad numbers) is an error.",
 "all command lines",INF,[("count.cpp",["mainCountDriver"]),("ReadPolyhedron.cpp",["ReadPolyhedronData::parse_option"]),("triangulation/triangulate.cpp",["parse_standard_triangulation_option"])])
p("C82","integrate computes what the command line asks for",
 "integrate runs exactly the methods asked for (cone decomposition, triangulation, by default all of them) for the value asked for, on the input and the integrand named on the command line.",
 "all command lines",INF,[("valuation/valuation.cpp",["mainValuationDriver","IntegrationInput::processUserInput"])])
p("C83","Empty input is recognised, and only empty input",
 "Before anything is computed, an input file in LattE format is tested for emptiness: a file that describes the empty set is rejected, and a file that describes a nonempty set is not, whatever the order and number of its linearity and nonnegative lines and whether its entries are integers or fractions.",
 "all input files, under a contract for cdd's linear programming",INF,[("CheckEmpty.cpp",["CheckEmpty"])])
p("C84","The vertices and edges that cdd reports are the ones computed with",
 "The inequalities sent to the program cdd are those of the polytope; the vertices and neighbours that cdd returns, in either of its two formats, are read so that every vertex cone has the reported vertex and its rays are exactly the primitive integer directions to its neighbours; a polytope that is one point or empty gives 1 or 0; an unbounded polyhedron is reported as such.",
 "all dimensions, systems of inequalities, tables of vertices, neighbour lists and layouts of the files",INF,[("vertices/cdd.cpp",["createCddIneFile","readCddExtFile","readCddEadFile","computeVertexCones"]),("rational.cpp",["ReadCDD"])])
p("C85","count FILE prints the number of integer points described by the file",
 "For an input file that describes a bounded set (matrix, linearity and nonnegative lines), the program count started with the name of the file prints exactly the number of integer points of the set, from reading the file through the emptiness test, redundancy removal, elimination of the equations, vertices, triangulation and decomposition to the substitution; an empty set is rejected. A number is always printed, except that a triangulation is not found, an assertion about short vectors fails, or every random vector tried is orthogonal to one of finitely many vectors.",
 "all input files, all answers of cdd, cddlib, NTL and rand() that keep their contracts",INF,[("count.cpp",["mainCountDriver"]),("ReadPolyhedron.cpp",["ReadPolyhedronData::read_polyhedron_hairy","ReadPolyhedronData::PolyhedronFromHrepMatrix","ReadPolyhedronData::polyhedronRedundancyCheck","ReadPolyhedronData::projectOutVariables","ReadPolyhedronData::matrixToVerticesOrCones"]),("latte_cddlib.cpp",["cddlib_matrix_to_equations_and_inequalities"])])
p("C86","Subcone files keep the cones",
 "Cones whose rays are rays of a master cone, printed to a subcone file and read again with the same master cone, come back with exactly their rays, in order, with the vertex of the master cone; whenever the writing program stops, the file gives cones that were written, or is rejected; files with another number of rays, entries other than 0 and 1 or too few entries are rejected, and so is printing a cone with a foreign ray.",
 "all master cones, lists of cones, index hints, layouts of the file, histories of writing and updating the count, and points where the writer stops",HIST,[("ReadSubcones.cpp",["ReadSubcones","cone_from_ray_indicator","IncrementalVectorFileWriter::WriteVector","IncrementalVectorFileWriter::UpdateNumVectors","SubconePrintingConeConsumer::ConsumeCone"])])
p("C87","Vertices and facets with 4ti2 are right, and so is the count from them",
 "For a polyhedron without lines the vertex cones computed with 4ti2 have every vertex exactly once, with the primitive outer normals of exactly the inequalities tight there; the polyhedron is reported unbounded exactly if it contains a ray; a polyhedron with a line stops the program. `count FILE` with these cones (the default) prints the number of integer points of the nonempty bounded set described by the file.",
 "every system of inequalities, every correct answer of 4ti2, every file, every stream of random numbers",INF,[("VertexConesWith4ti2.cpp",["computeVertexConesWith4ti2"]),("latte_4ti2.cpp",["rays_to_4ti2_VectorArray"]),("count.cpp",["mainCountDriver"])])
p("C88","The bounds shown by the approximation enclose the number of points",
 "With --approximate, every pair of bounds shown while the cones are refined encloses the number of integer points of the polytope, and the last pair is exactly that number; the bounds of a single cone, computed without enumerating its parallelepiped, enclose its contribution. The run ends, whatever the order in which the cones are refined, if the heap is large enough and the vector is not orthogonal to one of finitely many vectors.",
 "every polytope, random vector, index bound, size of the heap, order of refinement, and every answer of the libraries that keeps their contracts",INF,[("ExponentialApprox.cpp",["decomposeAndWriteExponentialSample","ConeApproximationData::ConeApproximationData","Exponential_Single_Cone_Parameters","Write_Exponential_Sample_Formula_Single_Cone_Parameters::EvaluateCone","Write_Exponential_Sample_Formula_Single_Cone_Parameters::ConsumeCone"]),("count.cpp",["mainCountDriver"])])
p("C89","Digging returns an optimal integer point and the number of optimal points",
 "latte-maximize and latte-minimize return an integer point of the polytope at which no other integer point has a larger (smaller) cost, and print the number of integer points with that cost. The search ends whenever there is an integer point. If some ray is orthogonal to the cost a perturbed cost is used, and the point returned is still optimal for the cost that was given.",
 "every polytope, signed unimodular decomposition of it, cost vector and sequence of random perturbations; for the heaps, every history of additions and removals",INF,[("ConeInfo.cpp",["ConeInfo::ConeInfo","ConeInfo::Calculate_Next_Highest_Term","ConeInfo::Calculate_Integral_Point","ConeInfo::Calculate_Pertubation","Vector_Heap::Add_Heap","Vector_Heap::Pop_Top_Heap","ConeInfo_Heap::Add_Heap","ConeInfo_Heap::Pop_Top_Heap"]),("IntegralHull.cpp",["SolveIP"]),("maximize.cpp",["main"]),("minimize.cpp",["main"])])
p("C90","The number of points from the list of all cones is exact",
 "When all unimodular cones of a polytope are kept in memory, the number reported is the number of its integer points, however many cones there are. The substitution used is the lexicographically first vector from 0 on with entries -1, 0, 1, 2 that is orthogonal to no ray, unless 5000 such vectors fail; then random vectors are tried, and any of them that is orthogonal to no ray gives the same number. latte-maximize and latte-minimize use the number to stop when there is no integer point and otherwise go on to an optimum.",
 "every list of cones with one point and the same number of rays each, every polytope with a unimodular decomposition, every sequence of random vectors",INF,[("Residue.cpp",["Residue"]),("count.cpp",["mainCountDriver"]),("maximize.cpp",["main"]),("minimize.cpp",["main"]),("barvinok/dec.cpp",["decomposeCones"])])
p("C91","Converting inequality files of cdd keeps the polyhedron",
 "ConvertCDDineToLatte turns a file of inequalities for cdd into a file that LattE reads as the same polyhedron: row by row the given row times the smallest positive integer that makes it integral, and a point satisfies the new file if and only if it satisfies the old one; equations stay equations, decimal numbers keep their value, and the files that LattE itself writes for cdd are accepted.",
 "every file of inequalities, every number of rows and columns, every integer, fraction or decimal number",INF,[("convertCDD_ine_to_latte.cpp",["main"]),("rational.cpp",["RationalNTL"])])
p("C92","The integer hull computed by latte-maximize and latte-minimize is complete",
 "The integer hull computation ends; every vector of the list it prints is an integer point of the polytope, and every integer point of the polytope is a convex combination of the list, whatever random costs are drawn.",
 "every polytope, every sequence of random costs, every number of rounds",INF,[("IntegralHull.cpp",["IntegralHull","GetHRepresentation","GetVertices","CheckVertices","Push_Vector","SolveIP"]),("maximize.cpp",["main"]),("minimize.cpp",["main"])])
p("C93","hilbert-from-rays writes vectors that generate the integer points of the cone",
 "hilbert-from-rays ends, and the vectors it writes are pairwise different integer points of the cone generated by the given rays, such that every integer point of the cone is a sum of given rays and written vectors, whatever triangulations are used and wherever the time limit strikes.",
 "every list of rays of a pointed cone, every sequence of triangulations and of time limits, every depth of subdivision",HIST,[("normalize/normalize.cpp",["normalize_main","handle_cone","insert_hilbert_basis_element","enumerate_simplicial_cone_with_latte","cone_unimodular","RecursiveNormalizer"]),("dual.cpp",["dualizeCone","computeDetAndFacetsOfSimplicialCone"]),("genFunction/piped.cpp",["pointsInParallelepiped"])])
p("C94","Dualizing a cone gives its polar cone, with either library",
 "Dualizing a cone that is given by its rays gives the polar cone: the new rays and subspace generate exactly the vectors with nonpositive product with all old rays, and the old rays are its facets; dualizing again gives back the cone with facets and equations that describe it, so that the system handed to zsolve has exactly the integer points of the cone as its solutions.",
 "every list of rays, every dimension, simplicial or not, full-dimensional or not, dualization with cdd or 4ti2",INF,[("dual.cpp",["dualizeCone","dualizeCone_with_cdd","computeDetAndFacetsOfSimplicialCone"]),("DualizationWith4ti2.cpp",["dualizeCone_with_4ti2","listVectors_from_VectorArray"]),("latte_4ti2.cpp",["rays_to_4ti2_VectorArray"]),("latte_4ti2_zsolve.cpp",["facets_to_4ti2_zsolve_LinearSystem"])])
p("C95","Triangulating a cone with 4ti2 delivers a triangulation",
 "Triangulating a cone with 4ti2 ends and delivers simplicial cones, each generated by some of the given rays, that cover the cone and any two of which lie on different sides of a hyperplane, for random, biased, squared-length and prescribed heights and whatever random numbers are drawn; with --nonsimplicial-subdivision the cones need not be simplicial.",
 "every list of rays spanning the space, in every dimension, every choice of heights, every stream of random numbers",HIST,[("triangulation/RegularTriangulationWith4ti2.cpp",["triangulate_cone_with_4ti2","lindep_heights_p","cone_from_ray_BitSet","random_regular_triangulation_with_4ti2","refined_delone_triangulation_with_4ti2"]),("triangulation/RegularTriangulation.cpp",["random_height","biased_random_height","delone_height","prescribed_height"]),("triangulation/triangulate.cpp",["triangulateCone"]),("latte_4ti2.cpp",["rays_to_4ti2_VectorArray"])])
p("C96","A short vector off the hyperplane is found and used",
 "The subspace-avoiding choice of short vectors always finds an integer vector whose last coordinate is not 0, the best of the vectors of the reduced basis that have this property; hence each ray of each cone of a subspace-avoiding decomposition is a ray of the cone given or has a nonzero last coordinate, and the index goes down until the bound asked for is reached.",
 "every cone with independent rays in every dimension, every reduced basis the LLL algorithm may return, every mode of decomposition and every sequence of answers of the consumer",INF,[("barvinok/SubspaceAvoidingDecomposition.cpp",["ComputeShortVectorAvoidingSubspace","max_norm"]),("barvinok/barvinok.cpp",["barvinokStep","barvinok_DFS"])])
p("C97","Triangulations computed by TOPCOM are passed on unchanged",
 "Triangulating a cone with TOPCOM hands the program exactly the rays of the cone and delivers exactly the simplices it prints, so that the cones form a triangulation whenever the program prints one; output that is not a triangulation of these rays is rejected with a message; and all triangulations are returned when all are asked for.",
 "every list of rays, every text the TOPCOM program may print, truncated or malformed ones included",INF,[("triangulation/TriangulationWithTOPCOM.cpp",["write_TOPCOM_point_configuration","read_TOPCOM_triangulation","triangulate_cone_with_TOPCOM","all_triangulations_of_cone_with_TOPCOM"]),("cone_consumer.cpp",["CollectingConeConsumer"])])
p("C98","The univariate rational function is the generating function graded by the last coordinate",
 "When the generating function is to be written in one variable t that stands for the last coordinate, the file assigns to HS an expression that any reader of arithmetic takes as the sum of rational functions of the cones with 1 for all variables but the last: its value is the sum of t^(last coordinate) over the points, its power series counts the points of each height (the Ehrhart series for the cone over a polytope), and the program stops instead of writing a division by zero.",
 "every dimension, every list of cones with any coefficients, rays and points, every value of t and every coefficient of the series",INF,[("TrivialSubst.cpp",["TrivialMonomialSubstitutionMapleOutput_Single","TrivialMonomialSubstitutionMapleOutput"]),("count.cpp",["mainCountDriver"])])
p("C99","Completing a triangulation of the boundary avoids the subspace",
 "Completing the simplicial cones on the boundary of a full-dimensional cone with one interior vector gives a triangulation of the cone whose facets avoid the subspace where the last coordinate is 0: the vector that is chosen lies in the interior, each facet of each completed cone has normals with a last coordinate that is not 0, exactly the completed cones that are full-dimensional are delivered, no assertion fails for cones with independent rays, and the search for the vector ends.",
 "every dimension, every list of boundary cones, every lattice reduction, every number of steps of the search",INF,[("triangulation/BoundaryTriangulation.cpp",["alpha_basis","singularity_avoiding","construct_interior_vector","complete_boundary_triangulation_of_cone_with_subspace_avoiding_facets"]),("triangulation/BoundaryTriangulation.h",["boundary_triangulation_of_cone_with_subspace_avoiding_facets"])])
#APPEND
json_lines="\n".join(json.dumps(x) for x in P)+"\n"
open("/verif/properties.jsonl","w").write(json_lines)
print(len(P))
