{"id": "C01", "title": "Exact rational arithmetic stays canonical and exact", "statement": "Every RationalNTL obtained from a constructor (non-zero denominator) by any sequence of add, sub, mult, div (by a non-zero object other than itself), powers, assignments and sign changes is in lowest terms with a positive denominator and equals the exact mathematical rational of the same expression; consequently two such objects compare equal exactly when their mathematical values are equal.", "quantifier": "all integers as numerators and denominators, all finite expressions over the operations", "why_tests_cant": "The domain is infinite; a test samples finitely many values. Canonicity is an invariant of every reachable object.", "anchors": [{"file": "code/latte/rational.cpp", "symbols": ["RationalNTL::canonicalize", "RationalNTL::add", "RationalNTL::sub", "RationalNTL::mult", "RationalNTL::div", "RationalNTL::operator=="]}, {"file": "code/latte/rational.h", "symbols": ["RationalNTL"]}]}
{"id": "C02", "title": "Rational powers are exact for every integer exponent", "statement": "power(r,e) equals r multiplied by itself e times for e>=0 and its reciprocal for e<0 (r non-zero); e<0 on zero is rejected, never answered.", "quantifier": "all rationals r and all integer exponents e", "why_tests_cant": "The domain is infinite; a test samples finitely many values.", "anchors": [{"file": "code/latte/rational.cpp", "symbols": ["RationalNTL::power"]}]}
{"id": "C03", "title": "A printed rational reads back as the same rational", "statement": "Writing a RationalNTL with operator<< and constructing a RationalNTL from that text (string constructor) gives back an equal object.", "quantifier": "all RationalNTL values", "why_tests_cant": "The domain is infinite; a test samples finitely many values.", "anchors": [{"file": "code/latte/rational.cpp", "symbols": ["operator <<", "RationalNTL::RationalNTL"]}]}
{"id": "C04", "title": "A zero denominator never turns into a number", "statement": "Creating a rational with denominator zero, or dividing by zero, must not silently yield an ordinary number.", "quantifier": "all numerators", "why_tests_cant": "The domain is infinite; a test samples finitely many values. The failing case is an error path that regular use does not exercise.", "anchors": [{"file": "code/latte/rational.cpp", "symbols": ["RationalNTL::canonicalize", "RationalNTL::div"]}]}
{"id": "C05", "title": "Scaling a rational vertex to integers is exact under every history of edits", "statement": "At any time, scaling a rational vector v to an integer vector yields (w,s) with s non-zero (positive for positive denominators) and w = s*v exactly, no matter in which order entries, numerators and denominators were set before and whether the scale was cached; if the coordinates are in lowest terms, s is the least such factor (it divides every t with t*v integral).", "quantifier": "all histories of set_entry (lazy or not), set_numerator, set_denominator, scalarMultiplication, canonicalisation, normalisation and scaling calls, all dimensions and entries", "why_tests_cant": "The claim is about every finite sequence of calls; tests run a few sequences. The cache makes the result depend on the history.", "anchors": [{"file": "code/latte/rational.h", "symbols": ["rationalVector"]}, {"file": "code/latte/rational.cpp", "symbols": ["scaleRationalVectorToInteger", "rationalVector::compute_integer_scale", "canonicalizeRationalVector"]}]}
{"id": "C06", "title": "Edge directions are primitive", "statement": "constructRay(v,w) returns the primitive integer vector (gcd of entries 1) that is a positive multiple of w-v.", "quantifier": "all pairs of distinct rational points of equal dimension", "why_tests_cant": "The domain is infinite; a test samples finitely many values.", "anchors": [{"file": "code/latte/rational.cpp", "symbols": ["constructRay"]}]}
{"id": "C07", "title": "Normalising a rational vector clears denominators without changing direction", "statement": "normalizeRationalVector returns a vector with all denominators one that is a positive multiple of its argument.", "quantifier": "all rational vectors with positive denominators", "why_tests_cant": "The domain is infinite; a test samples finitely many values.", "anchors": [{"file": "code/latte/rational.cpp", "symbols": ["normalizeRationalVector"]}]}
{"id": "C08", "title": "The heap is a priority queue", "statement": "After any sequence of inserts, pops, change-top and clears the top of a heap is a least (min-heap) or greatest (max-heap) stored weight, and the stored entries are exactly those inserted and not yet removed; popping to exhaustion yields a sorted sequence.", "quantifier": "all capacities and all finite sequences of operations within capacity", "why_tests_cant": "The claim is about every finite sequence of calls; tests run a few sequences.", "anchors": [{"file": "code/latte/heap.cpp", "symbols": ["heap_insert", "heap_pop", "heap_top", "bubble_up", "percolate_down", "heap_change_top_intweight"]}]}
{"id": "C09", "title": "Freezing and thawing a heap loses nothing and restores order", "statement": "While frozen, inserts only accumulate; thaw restores the priority-queue order over exactly the accumulated entries, from any frozen state.", "quantifier": "all entry sequences inserted while frozen, at every size", "why_tests_cant": "The claim is about every finite sequence of calls; tests run a few sequences.", "anchors": [{"file": "code/latte/heap.cpp", "symbols": ["heap_freeze", "heap_thaw"]}]}
{"id": "C10", "title": "The polynomial trie is a finite map from exponent vectors to coefficients", "statement": "After any sequence of insertions into a monomial sum (burst trie), at least one of them with a non-zero coefficient, iterating yields every (degree, exponent vector) whose inserted coefficients sum to a non-zero value exactly once, with that sum, and yields nothing else; monomials come in strictly increasing lexicographic order.", "quantifier": "all finite sequences of term insertions of a fixed number of variables", "why_tests_cant": "The claim is about every finite sequence of calls; tests run a few sequences. Bursting and range growth depend on the order of insertion.", "anchors": [{"file": "code/latte/integration/burstTrie.hpp", "symbols": ["BurstTrie::insertTerm", "BurstContainer::insertTerm", "BurstTerm::lessThan"]}, {"file": "code/latte/integration/iterators.hpp", "symbols": ["BTrieIterator"]}]}
{"id": "C11", "title": "Block storage of monomials keeps the represented polynomial", "statement": "Inserting monomials into the block representation and iterating returns every inserted exponent vector once, in the order of first insertion, with the sum of its coefficients, across block boundaries.", "quantifier": "all finite sequences of insertions, any number of variables", "why_tests_cant": "The claim is about every finite sequence of calls; tests run a few sequences.", "anchors": [{"file": "code/latte/integration/blockReps.h", "symbols": ["_insertMonomial", "_insertLinForm"]}, {"file": "code/latte/integration/iterators.hpp", "symbols": ["MBlockIterator", "LBlockIterator"]}]}
{"id": "C12", "title": "A printed polynomial parses back to the same polynomial", "statement": "printMonomials followed by loadMonomials yields a representation of the same polynomial.", "quantifier": "all non-empty polynomials", "why_tests_cant": "The domain is infinite; a test samples finitely many values.", "anchors": [{"file": "code/latte/integration/PolyTrie.cpp", "symbols": ["loadMonomials", "parseMonomials", "printMonomials"]}]}
{"id": "C13", "title": "Truncated polynomial product", "statement": "multiply(p,q,min,max) yields exactly the terms of the mathematical product p*q whose every exponent lies in the given box.", "quantifier": "all polynomials and all boxes", "why_tests_cant": "The domain is infinite; a test samples finitely many values.", "anchors": [{"file": "code/latte/integration/multiply.h", "symbols": ["multiply"]}]}
{"id": "C14", "title": "Block product multiplies all terms", "statement": "The block-representation multiply yields the product of all terms of both factors.", "quantifier": "all polynomials in block representation", "why_tests_cant": "The domain is infinite; a test samples finitely many values.", "anchors": [{"file": "code/latte/integration/multiply.h", "symbols": ["multiply"]}]}
{"id": "C15", "title": "Monomial to powers of linear forms is an identity", "statement": "The linear forms and coefficients produced by decomposing a monomial c*x^M satisfy sum coef_l * <l,x>^|M| / |M|! = c*x^M for every x.", "quantifier": "all exponent vectors M, all coefficients c, all points x", "why_tests_cant": "The number of linear forms grows with the product of exponents; the identity is over all points x.", "anchors": [{"file": "code/latte/integration/PolyTrie.cpp", "symbols": ["decompose"]}, {"file": "code/latte/integration/PolyRep.cpp", "symbols": ["_decompose"]}]}
{"id": "C16", "title": "Integral of a power of a linear form over a simplex", "statement": "For a simplex whose vertices give pairwise different values of the linear form, the accumulated fraction equals the sum over vertices of <l,s_i>^(m+d)/prod_j(<l,s_i>-<l,s_j>) times the simplex volume, exactly, whatever order terms are accumulated and reduced in.", "quantifier": "all dimensions, simplices and linear forms", "why_tests_cant": "The domain is infinite; a test samples finitely many values.", "anchors": [{"file": "code/latte/integration/newIntegration.cpp", "symbols": ["update", "integrateLinFormSum"]}]}
{"id": "C17", "title": "Integer powers and binomial coefficients are exact", "statement": "Power_ZZ(a,b) equals a^b and AChooseB(a,b) equals the binomial coefficient.", "quantifier": "all integers a, all b in the supported range", "why_tests_cant": "The domain is infinite; a test samples finitely many values.", "anchors": [{"file": "code/latte/integration/residue.cpp", "symbols": ["Power_ZZ", "AChooseB"]}]}
{"id": "C18", "title": "Residues of repeated factors", "statement": "The product of truncated power series used for repeated vertices equals the coefficient of the mathematical series product.", "quantifier": "all series lengths and coefficients", "why_tests_cant": "The domain is infinite; a test samples finitely many values.", "anchors": [{"file": "code/latte/integration/residue.cpp", "symbols": ["computeResidue"]}]}
{"id": "C19", "title": "Polynomial interpolation is exact", "statement": "After adding d+1 points with pairwise different abscissae, solve returns the unique polynomial of degree at most d through all of them; with a repeated abscissa it must report failure rather than return or crash.", "quantifier": "all degrees and all point sets", "why_tests_cant": "The domain is infinite; a test samples finitely many values.", "anchors": [{"file": "code/latte/interpolation/PolynomialInterpolation.cpp", "symbols": ["addPoint", "GE", "solve", "evaluatePoly"]}]}
{"id": "C20", "title": "Todd polynomials are the coefficients of the generating series", "statement": "evaluate_todd(x_1..x_n) returns the coefficients up to degree n of prod x_i t/(1-exp(x_i t)) (the sign convention of the code), also for zero or repeated arguments.", "quantifier": "all dimensions and arguments", "why_tests_cant": "The domain is infinite; a test samples finitely many values.", "anchors": [{"file": "code/latte/todd/todd-expansion.cpp", "symbols": ["taylor_for_todd", "taylor_product", "taylor_reciprocal", "evaluate_todd"]}]}
{"id": "C21", "title": "Periodic-function arithmetic preserves meaning", "statement": "Adding, subtracting, multiplying and raising periodic functions yields expressions denoting the pointwise sum, difference, product and power at every argument.", "quantifier": "all expression trees and all arguments", "why_tests_cant": "The domain is infinite; a test samples finitely many values. Constant folding rewrites trees, so each combination of shapes matters.", "anchors": [{"file": "code/latte/top-knapsack/PeriodicFunction.cpp", "symbols": ["PeriodicFunction::add", "PeriodicFunction::times", "PeriodicFunction::pow", "PeriodicFunction::div"]}]}
{"id": "C22", "title": "Moebius values form an inclusion-exclusion over the stored gcds", "statement": "After computing, for every stored value f the sum of the Moebius values of all stored multiples of f is one, and missing gcd 1 is reported.", "quantifier": "all finite sets of positive gcds closed as inserted, in any insertion order", "why_tests_cant": "The claim is about every finite sequence of calls; tests run a few sequences.", "anchors": [{"file": "code/latte/top-knapsack/TopKnapsack.cpp", "symbols": ["MobiusList::insertGCD", "MobiusList::computeMobius"]}]}
{"id": "C23", "title": "All sub-list gcds are found", "statement": "The list of gcds built for the knapsack is exactly the set of gcds of non-empty sublists that qualify, with no repetition, whichever of the two enumeration methods is used.", "quantifier": "all coefficient lists", "why_tests_cant": "The domain is infinite; a test samples finitely many values.", "anchors": [{"file": "code/latte/top-knapsack/TopKnapsack.cpp", "symbols": ["everyGCDFromEntireList", "everyGCDFromSubsets"]}]}
{"id": "C24", "title": "Bernoulli numbers are correct", "statement": "The table of Bernoulli numbers satisfies the defining recurrence at every index (odd ones beyond the first included).", "quantifier": "all table lengths", "why_tests_cant": "The domain is infinite; a test samples finitely many values.", "anchors": [{"file": "code/latte/top-knapsack/TopKnapsack.cpp", "symbols": ["BernoulliFirstKind::setBernoulli"]}]}
{"id": "C25", "title": "Integer-combination enumeration is complete and duplicate-free", "statement": "Repeated getNext returns every vector k with 0<=k_i<=u_i exactly once and then reports the end forever.", "quantifier": "all lengths >= 1 and all non-negative bounds", "why_tests_cant": "The claim is about every finite sequence of calls; tests run a few sequences.", "anchors": [{"file": "code/latte/genFunction/IntCombEnum.cpp", "symbols": ["IntCombEnum::getNext", "IntCombEnum::is_last"]}]}
{"id": "C26", "title": "Points of the fundamental parallelepiped", "statement": "For a simplicial cone with given vertex the returned points are integral, pairwise different, lie in the half-open fundamental parallelepiped at the vertex, and every integer point there is returned.", "quantifier": "all dimensions, all cones with non-zero determinant, all rational vertices", "why_tests_cant": "The domain is infinite; a test samples finitely many values.", "anchors": [{"file": "code/latte/genFunction/piped.cpp", "symbols": ["PointsInParallelepipedGenerator", "pointsInParallelepiped"]}]}
{"id": "C27", "title": "Facets and determinant of a simplicial cone are dual to its rays", "statement": "After computing facets, <ray_i,facet_j> is zero for i!=j and minus the i-th facet divisor for i=j, facets are primitive, and divisors are positive.", "quantifier": "all dimensions and all linearly independent integer rays", "why_tests_cant": "The domain is infinite; a test samples finitely many values.", "anchors": [{"file": "code/latte/dual.cpp", "symbols": ["computeDetAndFacetsOfSimplicialCone", "dualizeCone"]}]}
{"id": "C28", "title": "Irrationalising a cone keeps its lattice points", "statement": "The shifted cone contains exactly the same integer points as the original one, and the internal consistency assertion can not fire.", "quantifier": "all simplicial cones and rational vertices", "why_tests_cant": "The domain is infinite; a test samples finitely many values.", "anchors": [{"file": "code/latte/Irrational.cpp", "symbols": ["irrationalizeCone", "computeConeStabilityCube_simplicial", "simplifyConeStabilityCube", "assertConesIntegerEquivalent", "isConeIrrational"]}]}
{"id": "C29", "title": "One signed decomposition step preserves the cone", "statement": "At every point not on a boundary hyperplane, the signed count of the child cones containing it equals one if the point is in the parent cone and zero otherwise.", "quantifier": "all dimensions, cones, splitting vectors and generic points", "why_tests_cant": "The domain is infinite; a test samples finitely many values.", "anchors": [{"file": "code/latte/barvinok/barvinok.cpp", "symbols": ["barvinokStep", "CheckOmega", "computeAndCheckDeterminants"]}]}
{"id": "C30", "title": "The whole signed decomposition preserves the cone and terminates", "statement": "The recursive decomposition terminates, delivers only cones of index at most the requested maximum, each child once, and the signed count of the delivered cones at generic points equals the indicator of the original cone.", "quantifier": "all cones, all (valid) short-vector choices, all maximal indices", "why_tests_cant": "The claim is about every finite sequence of calls; tests run a few sequences.", "anchors": [{"file": "code/latte/barvinok/barvinok.cpp", "symbols": ["barvinok_DFS", "deliver_cone"]}]}
{"id": "C31", "title": "Hermite reduction is a unimodular transformation", "statement": "ihermite returns U invertible over the integers such that U times the input equals the output up to the recorded column exchanges, the output is upper triangular in its first columns, and the exchanges are mirrored in the right-hand side; it always terminates.", "quantifier": "all integer matrices of any shape", "why_tests_cant": "The domain is infinite; a test samples finitely many values.", "anchors": [{"file": "code/latte/preprocess.cpp", "symbols": ["ihermite"]}]}
{"id": "C32", "title": "Smith normal form transforms are consistent", "statement": "SmithNormalForm(A,L,R) returns a diagonal S with L*A*R = S and L, R invertible over the integers.", "quantifier": "all non-singular integer matrices", "why_tests_cant": "The domain is infinite; a test samples finitely many values.", "anchors": [{"file": "code/latte/genFunction/matrix_ops.cpp", "symbols": ["SmithNormalFormIlio", "diagonalizationIn", "eliminationRow", "eliminationCol"]}]}
{"id": "C33", "title": "Aggregating equations keeps the non-negative integer solutions", "statement": "A non-negative integer point (with its slacks) satisfies the aggregated equation iff it satisfies every aggregated row.", "quantifier": "all matrices accepted by the program", "why_tests_cant": "The domain is infinite; a test samples finitely many values.", "anchors": [{"file": "code/latte/aggregation/aggregation.cpp", "symbols": ["KannanAggregation"]}]}
{"id": "C34", "title": "Binary search returns the integer optimum", "statement": "For a feasible bounded problem the value found is the maximum of the cost over integer points, for every consistent counting oracle, and the printed value has the sign of the user's problem.", "quantifier": "all cost ranges and all feasible sets", "why_tests_cant": "The domain is infinite; a test samples finitely many values.", "anchors": [{"file": "code/latte/binarySearchIP.cpp", "symbols": ["binarySearch"]}]}
{"id": "C35", "title": "Comparing point lists", "statement": "isEqual(first,second) holds exactly if both lists contain the same points; membership reports whether the vector occurs in the list.", "quantifier": "all lists of vectors", "why_tests_cant": "The domain is infinite; a test samples finitely many values.", "anchors": [{"file": "code/latte/ramon.cpp", "symbols": ["isEqual", "isVectorInListVector", "isVectorEqualToVector"]}]}
{"id": "C36", "title": "Big-integer conversions are lossless", "statement": "Converting between the two big-integer types and back is the identity, including negative numbers and zero.", "quantifier": "all integers", "why_tests_cant": "The domain is infinite; a test samples finitely many values.", "anchors": [{"file": "code/latte/latte_gmp.cpp", "symbols": ["convert_ZZ_to_mpz", "convert_mpz_to_ZZ"]}]}
{"id": "C37", "title": "LattE-format matrices survive a write/read cycle", "statement": "Writing a matrix with its linearity set and reading it back yields the same matrix and set; keywords add exactly the stated constraints.", "quantifier": "all matrices, linearity sets and keyword lists", "why_tests_cant": "The domain is infinite; a test samples finitely many values.", "anchors": [{"file": "code/latte/ReadLatteStyle.cpp", "symbols": ["ReadLatteStyleMatrix", "WriteLatteStyleMatrix", "add_nonnegativity"]}]}
{"id": "C38", "title": "Timers add up", "statement": "The elapsed time of a timer is the sum over completed start/stop intervals since the last clear, for every legal call history, and illegal calls are rejected.", "quantifier": "all call histories and clock readings", "why_tests_cant": "The claim is about every finite sequence of calls; tests run a few sequences.", "anchors": [{"file": "code/latte/timing.cpp", "symbols": ["Timer::start", "Timer::stop", "Timer::clear"]}]}
{"id": "C39", "title": "Generated graphs have the advertised shape", "statement": "Spanning trees are trees, random connected graphs are simple, connected and have the requested number of edges, and the fixed families have exactly the advertised edges - for every outcome of the random generator.", "quantifier": "all sizes and all random choices", "why_tests_cant": "Random choices make each run different.", "anchors": [{"file": "code/latte/buildPolytopes/GraphMaker.cpp", "symbols": ["makeRandomSpanningTree", "makeRandomConnectedGraph", "makeCheckerboard", "makeCircleGraph", "makeLinearGraph", "addEdgeInOrder"]}]}
{"id": "C40", "title": "Taylor expansion of generating-function trees", "statement": "Expanding an expression tree yields the truncated power series of the denoted polynomial (and, for quotients, the scaled and rounded-down series coefficients); a cached expansion equals a fresh one as long as the scale is kept and the degree does not grow (a growing degree reads stale coefficients).", "quantifier": "all trees, all degrees", "why_tests_cant": "The domain is infinite; a test samples finitely many values.", "anchors": [{"file": "code/latte/PolyTree.cpp", "symbols": ["PolyTree_Node::Taylor_Expansion", "T_Node::Taylor_Expansion"]}]}
{"id": "C41", "title": "Ehrhart coefficients agree with direct counting of dilations", "statement": "For lists of full-dimensional simplicial cones, the polynomial accumulated over cones, evaluated at any dilation t, equals the exponential-residue sum computed for the t-dilated cones, however many non-generic vectors were tried before; cones with fewer rays than variables make the code read past its weights.", "quantifier": "all cone lists, generic vectors and dilations", "why_tests_cant": "The domain is infinite; a test samples finitely many values.", "anchors": [{"file": "code/latte/ExponentialEhrhart.cpp", "symbols": ["Exponential_Ehrhart_Parameters::ConsumeCone"]}, {"file": "code/latte/ExponentialSubst.cpp", "symbols": ["computeExponentialResidueWeights", "compute_sums_of_scalar_powers"]}]}
{"id": "C42", "title": "Dilation bookkeeping in valuations", "statement": "Dilating the polytope by k and the integrand correspondingly and dividing by the Jacobian leaves the integral unchanged.", "quantifier": "all dilation factors, dimensions and linear forms", "why_tests_cant": "The domain is infinite; a test samples finitely many values.", "anchors": [{"file": "code/latte/valuation/PolytopeValuation.cpp", "symbols": ["dilateLinearForms", "dilatePolynomialToLinearForms", "findDilationFactorOneCone", "dilatePolytopeOneCone"]}]}
{"id": "C43", "title": "Volume from cone determinants", "statement": "The volume reported for a triangulated homogenised polytope equals the sum of the simplex volumes.", "quantifier": "all triangulations and dimensions", "why_tests_cant": "The domain is infinite; a test samples finitely many values.", "anchors": [{"file": "code/latte/valuation/PolytopeValuation.cpp", "symbols": ["findVolumeUsingDeterminant", "convertToOneCone"]}]}
{"id": "C44", "title": "Collecting equal perturbation factors keeps the product", "statement": "Merging equal linear factors (constant + epsilon terms) before taking residues leaves the represented rational function unchanged.", "quantifier": "all lists of factors", "why_tests_cant": "The domain is infinite; a test samples finitely many values.", "anchors": [{"file": "code/latte/valuation/Perturbation.cpp", "symbols": ["LinearLawrenceIntegration::updatePowers"]}]}
{"id": "C45", "title": "Eliminating equations keeps the lattice points", "statement": "After preprocessing, the integer points of the reduced problem correspond one-to-one to the integer points of the original problem, and a problem whose equations determine a unique integer point satisfying the inequalities is counted as one.", "quantifier": "all systems of equations and inequalities", "why_tests_cant": "The domain is infinite; a test samples finitely many values.", "anchors": [{"file": "code/latte/preprocess.cpp", "symbols": ["preprocessProblem", "checkListVector"]}]}
{"id": "C46", "title": "Removing redundant constraints only removes redundant constraints", "statement": "checkListVector drops only constraints that every point satisfies.", "quantifier": "all constraint lists", "why_tests_cant": "The domain is infinite; a test samples finitely many values.", "anchors": [{"file": "code/latte/preprocess.cpp", "symbols": ["checkListVector"]}, {"file": "code/latte/ramon.cpp", "symbols": ["removeListVector"]}]}
{"id": "C47", "title": "Cone consumers see every produced cone once", "statement": "Collecting, counting and transducing consumers receive each produced cone exactly once and keep all of them in reverse order of production; copying and appending lists keeps contents.", "quantifier": "all cone sequences and consumer chains", "why_tests_cant": "The claim is about every finite sequence of calls; tests run a few sequences.", "anchors": [{"file": "code/latte/cone_consumer.cpp", "symbols": ["CollectingConeConsumer", "CompositeConeProducer"]}, {"file": "code/latte/cone.cpp", "symbols": ["copyListCone", "appendListCones", "copyListVector"]}]}
{"id": "C48", "title": "Repeated monomials in the input are harmless", "statement": "A polynomial in which a monomial is written twice is integrated like the polynomial with the coefficients added.", "quantifier": "all polynomials with repeated monomials", "why_tests_cant": "The claim is about every finite sequence of calls; tests run a few sequences.", "anchors": [{"file": "code/latte/valuation/PolytopeValuation.cpp", "symbols": ["dilatePolynomialToLinearForms"]}, {"file": "code/latte/integration/burstTrie.hpp", "symbols": ["BurstContainer::insertTerm"]}]}
{"id": "C49", "title": "Products of linear forms keep every factor", "statement": "Storing a product of powers of linear forms keeps all factors, including repeated ones and a zero coefficient.", "quantifier": "all products of linear forms", "why_tests_cant": "The domain is infinite; a test samples finitely many values.", "anchors": [{"file": "code/latte/integration/PolyTrie.cpp", "symbols": ["parseLinFormProducts", "insertLinForm"]}]}
{"id": "C50", "title": "Random integers stay in range", "statement": "uniform_random_number(from,to) lies between from and to and every value is attainable.", "quantifier": "all ranges and all outcomes of the generator", "why_tests_cant": "The domain is infinite; a test samples finitely many values.", "anchors": [{"file": "code/latte/latte_random.cpp", "symbols": ["uniform_random_number"]}]}
{"id": "C51", "title": "Dividing a rational object by itself gives one", "statement": "r.div(r) leaves the value 1 in r for every non-zero r (the in-place operations take their operand by reference, so the operand may be the object itself).", "quantifier": "all non-zero rationals", "why_tests_cant": "The domain is infinite; a test samples finitely many values. Aliasing of the operand with the object is a calling pattern tests rarely use.", "anchors": [{"file": "code/latte/rational.cpp", "symbols": ["RationalNTL::div"]}]}
{"id": "C52", "title": "Inner products of rational vectors are exact", "statement": "innerProduct(v,w) is the exact sum of products, in lowest terms, for equally long vectors, and is rejected for different lengths.", "quantifier": "all pairs of vectors of all lengths", "why_tests_cant": "The domain is infinite; a test samples finitely many values.", "anchors": [{"file": "code/latte/rational.cpp", "symbols": ["vec_RationalNTL::innerProduct"]}]}
{"id": "C53", "title": "The hand-written gcd is the gcd and terminates", "statement": "myGCD(a,b) returns the non-negative greatest common divisor for integers of any sign, including zero, and always ends.", "quantifier": "all pairs of integers", "why_tests_cant": "The domain is infinite; a test samples finitely many values.", "anchors": [{"file": "code/latte/rational.cpp", "symbols": ["RationalNTL::myGCD"]}]}
{"id": "C54", "title": "Editing one coordinate or scaling a rational vector changes exactly what it says", "statement": "set_entry changes only the named coordinate; canonicalisation keeps every coordinate's value and brings it to lowest terms; scalarMultiplication multiplies every coordinate by the given fraction.", "quantifier": "all reachable vectors and arguments", "why_tests_cant": "The claim is about every finite sequence of calls; tests run a few sequences.", "anchors": [{"file": "code/latte/rational.h", "symbols": ["rationalVector::set_entry"]}, {"file": "code/latte/rational.cpp", "symbols": ["canonicalizeRationalVector", "rationalVector::scalarMultiplication"]}]}
{"id": "C55", "title": "Dilated constraints describe the dilated polytope", "statement": "After dilating the right-hand sides by a positive factor t, a point satisfies the constraints exactly if the point divided by t satisfied the original ones.", "quantifier": "all constraint lists, dilation factors and points", "why_tests_cant": "The domain is infinite; a test samples finitely many values.", "anchors": [{"file": "code/latte/preprocess.cpp", "symbols": ["dilateListVector"]}]}
{"id": "C56", "title": "Interior constraints select interior lattice points", "statement": "The integer points satisfying the 'interior' version of the constraints are exactly those satisfying every original constraint strictly.", "quantifier": "all constraint lists and integer points", "why_tests_cant": "The domain is infinite; a test samples finitely many values.", "anchors": [{"file": "code/latte/preprocess.cpp", "symbols": ["Interior"]}]}
{"id": "C57", "title": "Conversion to machine integers never truncates", "statement": "convert_ZZ_to_int returns exactly the given number or aborts; it aborts exactly for absolute values above INT_MAX.", "quantifier": "all integers", "why_tests_cant": "The domain is infinite; a test samples finitely many values.", "anchors": [{"file": "code/latte/latte_ntl.cpp", "symbols": ["convert_ZZ_to_int"]}]}
{"id": "C58", "title": "Modular inner products are reduced and congruent", "statement": "InnerProductModulo(a,b,m) is the representative in [0,m) of the inner product for every positive m and vectors with entries of any sign.", "quantifier": "all vectors and moduli", "why_tests_cant": "The domain is infinite; a test samples finitely many values.", "anchors": [{"file": "code/latte/latte_ntl.cpp", "symbols": ["InnerProductModulo"]}]}
{"id": "C59", "title": "Polynomial objects compute with polynomials", "statement": "After any sequence of insertMonomial, add and multiply (truncated to a box) calls on polynomial objects (GeneralMonomialSum), each object represents the polynomial the calls describe: term count 0 means the zero polynomial, otherwise iterating it delivers each monomial with non-zero coefficient exactly once with its exact coefficient.", "quantifier": "all finite histories of operations on any number of objects over a fixed number of variables, all rational coefficients", "why_tests_cant": "The claim is about every finite sequence of calls; tests run a few sequences.", "anchors": [{"file": "code/latte/integration/GeneralMonomialSum.h", "symbols": ["GeneralMonomialSum::multiply", "GeneralMonomialSum::add", "GeneralMonomialSum::insertMonomial"]}, {"file": "code/latte/integration/multiply.h", "symbols": ["multiply"]}]}
{"id": "C60", "title": "Integral of a polynomial over a simplex", "statement": "Integrating a polynomial over a simplex by decomposing it into powers of linear forms returns exactly the integral (the value of every linear functional that integrates powers of linear forms correctly), in lowest form with positive denominator.", "quantifier": "all polynomials, all simplices", "why_tests_cant": "The domain is infinite; a test samples finitely many values.", "anchors": [{"file": "code/latte/integration/newIntegration.cpp", "symbols": ["integrateMonomialSum", "integrateLinFormSum", "update"]}, {"file": "code/latte/integration/PolyTrie.cpp", "symbols": ["decompose"]}]}
{"id": "C61", "title": "Lattice bases for periodic parts are bases", "statement": "For coefficients alpha and a number f, findLatticeBasis returns vectors that generate exactly the integer vectors x for which f divides alpha.x, each in one way only.", "quantifier": "all non-empty coefficient vectors, all non-zero f", "why_tests_cant": "The domain is infinite; a test samples finitely many values.", "anchors": [{"file": "code/latte/top-knapsack/TopKnapsack.cpp", "symbols": ["TopKnapsack::findLatticeBasis"]}]}
{"id": "C62", "title": "Vertices of the periodic part solve the congruence", "statement": "findVertex returns an integer vector v with alpha.v congruent to 1 modulo f whenever alpha and f have no common factor.", "quantifier": "all coefficient vectors and f with gcd 1", "why_tests_cant": "The domain is infinite; a test samples finitely many values.", "anchors": [{"file": "code/latte/top-knapsack/TopKnapsack.cpp", "symbols": ["TopKnapsack::findVertex"]}]}
{"id": "C63", "title": "Counting by exponential residues is exact", "statement": "Whenever the rational generating functions of the cones sum to the generating polynomial of a finite point set, the exponential-residue method returns exactly its number of points: the final integrality assertion never fires and the answer does not depend on which generic vectors are guessed. Likewise the Ehrhart polynomial at t counts the points generated by the t-dilated cones.", "quantifier": "all dimensions, cone lists, point sets and sequences of guessed vectors that contain a generic one", "why_tests_cant": "The domain is infinite; a test samples finitely many values.", "anchors": [{"file": "code/latte/ExponentialSubst.cpp", "symbols": ["computeExponentialResidueWeights", "computeExponentialResidue_Single", "computeExponentialResidue"]}, {"file": "code/latte/ExponentialEhrhart.cpp", "symbols": ["Exponential_Ehrhart_Parameters::ConsumeCone"]}, {"file": "code/latte/todd/todd-expansion.cpp", "symbols": ["evaluate_todd"]}]}
{"id": "C64", "title": "The node pool never hands out a node in use", "statement": "After any history of allocations, resets and writes, the next node handed out has not been handed out since the last reset, is marked as not yet expanded, has room for all coefficients, and no other node is changed.", "quantifier": "all histories of pool operations", "why_tests_cant": "The claim is about every finite sequence of calls; tests run a few sequences.", "anchors": [{"file": "code/latte/PolyTree.cpp", "symbols": ["Node_Controller::Get_PolyTree_Node", "Node_Controller::Reset", "Node_Controller::Node_Controller"]}]}
{"id": "C65", "title": "Integration over tangent cones", "statement": "Integrating powers of linear forms through the tangent cones of a polytope returns exactly the signed cone sum (constant terms of the perturbed cone contributions), whichever perturbation was drawn; for a polytope with integer vertices, with its simplicial tangent cones and rays in any order and of any length, this is exactly its integral. The search for a perturbation ends.", "quantifier": "all dimensions, cone lists, linear forms, degrees from 1, and random number sequences", "why_tests_cant": "The domain is infinite; a test samples finitely many values.", "anchors": [{"file": "code/latte/valuation/Perturbation.cpp", "symbols": ["LinearPerturbationContainer::findPerturbation", "LinearLawrenceIntegration::integrateTerm", "LinearLawrenceIntegration::computeDotProducts"]}, {"file": "code/latte/integration/residue.cpp", "symbols": ["computeResidueLawrence"]}, {"file": "code/latte/valuation/PolytopeValuation.cpp", "symbols": ["PolytopeValuation::findIntegralUsingLawrence"]}]}
{"id": "C66", "title": "Several questions to one polytope", "statement": "A polytope valuation object answers any sequence of questions (volumes, integrals) with the same right values, whatever was asked before.", "quantifier": "all polytopes and all sequences of calls on one object", "why_tests_cant": "The claim is about every finite sequence of calls; tests run a few sequences.", "anchors": [{"file": "code/latte/valuation/PolytopeValuation.cpp", "symbols": ["findVolume", "findIntegral", "findIntegralPolynomialToLinearForms", "triangulatePolytopeCone", "dilatePolytopeOneCone", "dilatePolytopeVertexRays"]}]}
{"id": "C67", "title": "A text of powers of linear forms is loaded as that sum and printed back", "statement": "Loading the text [[c, [d, [l]]], ...] gives an object standing for the sum of c*l^d; printing it and loading the text again gives an equal object.", "quantifier": "all sums of powers of linear forms with at least one non-zero coefficient", "why_tests_cant": "The domain is infinite; a test samples finitely many values.", "anchors": [{"file": "code/latte/integration/PolyTrie.cpp", "symbols": ["loadLinForms", "parseLinForms", "printLinForms"]}]}
{"id": "C68", "title": "A rational inserted into a stream is extracted again", "statement": "operator>> after operator<< gives an equal RationalNTL and leaves what follows in the stream; a number may carry a sign.", "quantifier": "all RationalNTL values and all following texts", "why_tests_cant": "The domain is infinite; a test samples finitely many values.", "anchors": [{"file": "code/latte/rational.cpp", "symbols": ["operator >>", "RationalNTL::readNumber", "operator <<"]}]}
{"id": "C69", "title": "Random disconnected graphs fall into two halves", "statement": "A random disconnected graph is simple, has the requested number of edges and no edge between the two halves of its vertices, for every outcome of the random generator, and the generator ends for every request.", "quantifier": "all sizes, edge counts and random choices", "why_tests_cant": "Random choices make each run different.", "anchors": [{"file": "code/latte/buildPolytopes/GraphMaker.cpp", "symbols": ["makeRandomDisconnectedGraph", "addEdgeInOrder"]}]}
{"id": "C70", "title": "Hypersimplices and Kneser graphs are complete", "statement": "The hypersimplex points generated for n and k are exactly the 0/1 vectors of length n with k ones, each once and with a leading 1; the Kneser graph on them is simple and joins exactly the disjoint subsets.", "quantifier": "all dimensions and subset sizes", "why_tests_cant": "The domain is infinite; a test samples finitely many values.", "anchors": [{"file": "code/latte/buildPolytopes/BuildHypersimplexEdgePolytope.cpp", "symbols": ["addToPoints", "generatePoints"]}, {"file": "code/latte/buildPolytopes/GraphMaker.cpp", "symbols": ["makeKneserGraph", "nchoosek"]}]}
{"id": "C71", "title": "Edge polytopes have the points of their graph", "statement": "The edge polytope of a graph has exactly one point e_a+e_b per edge, the symmetric edge polytope exactly the points e_a-e_b and e_b-e_a, with a leading 1.", "quantifier": "all graphs", "why_tests_cant": "The domain is infinite; a test samples finitely many values.", "anchors": [{"file": "code/latte/buildPolytopes/BuildGraphPolytope.cpp", "symbols": ["findEdgePolytope", "findSymmetricEdgePolytope"]}, {"file": "code/latte/buildPolytopes/BuildPolytope.cpp", "symbols": ["addPoint"]}]}
{"id": "C72", "title": "The number of integer points is right", "statement": "Counting the integer points of a polytope given by inequalities, with the exponential substitution and dual, irrational primal or irrational all-primal decomposition, returns exactly the number of integer points, whatever the maximal index of the cones, the triangulations, the short vectors and the random generic vectors.", "quantifier": "all dimensions, polytopes (rational, not necessarily simple), options, triangulations, short vectors and random vectors", "why_tests_cant": "The domain is infinite; a test samples finitely many values.", "anchors": [{"file": "code/latte/count.cpp", "symbols": ["mainCountDriver"]}, {"file": "code/latte/dual.cpp", "symbols": ["computeTightInequalitiesOfCones", "dualizeCone"]}, {"file": "code/latte/barvinok/dec.cpp", "symbols": ["barvinokDecomposition_List"]}, {"file": "code/latte/barvinok/barvinok.cpp", "symbols": ["barvinokDecomposition_Single", "barvinok_DFS"]}, {"file": "code/latte/ExponentialSubst.cpp", "symbols": ["decomposeAndComputeExponentialResidue", "Exponential_Single_Cone_Parameters::ConsumeCone"]}]}
{"id": "C73", "title": "The Ehrhart polynomial counts the dilations", "statement": "For a polytope with integer vertices the coefficients returned form a polynomial whose value at every t >= 1 is the number of integer points of the t-fold polytope; for a polytope with a non-integer vertex an exception is thrown.", "quantifier": "all dimensions, polytopes, dilations, options, triangulations, short vectors and random vectors", "why_tests_cant": "The domain is infinite; a test samples finitely many values.", "anchors": [{"file": "code/latte/count.cpp", "symbols": ["mainCountDriver"]}, {"file": "code/latte/ExponentialEhrhart.cpp", "symbols": ["Exponential_Ehrhart_Parameters::ConsumeCone", "decomposeAndComputeEhrhartPolynomial"]}]}
{"id": "C74", "title": "The multivariate generating function is right", "statement": "With --multivariate-generating-function, the text written for a polyhedron with at least one vertex is a well-formed expression in x[0], x[1], ... whose expansion is the generating function of the integer points; for a polytope, its value wherever the denominators do not vanish is the sum of the monomials of the integer points.", "quantifier": "all dimensions, polyhedra with vertices (bounded or not), options, triangulations, short vectors and values of the variables", "why_tests_cant": "The domain is infinite; a test samples finitely many values.", "anchors": [{"file": "code/latte/count.cpp", "symbols": ["mainCountDriver"]}, {"file": "code/latte/genFunction/maple.cpp", "symbols": ["writeTermToFile", "writeTermOfGeneratingFunctionToFile", "createGeneratingFunctionAsMapleInput", "GeneratingFunctionWritingConeConsumer::ConsumeCone"]}]}
{"id": "C75", "title": "The generating function is lifted back through the equations", "statement": "For a polytope given by equations and inequalities, possibly dilated, the text written is an expression in the original variables for the integer points of the original system.", "quantifier": "all systems of equations and inequalities, dilations, options and values of the variables", "why_tests_cant": "The domain is infinite; a test samples finitely many values.", "anchors": [{"file": "code/latte/ProjectUp.cpp", "symbols": ["ProjectUp2", "ProjectingUpConeTransducer::ConsumeCone"]}, {"file": "code/latte/ReadPolyhedron.cpp", "symbols": ["ReadPolyhedronData::projectOutVariables"]}, {"file": "code/latte/preprocess.cpp", "symbols": ["preprocessProblem"]}]}
{"id": "C76", "title": "The default counting method is right", "statement": "Counting the integer points of a polytope with the polynomial substitution in memory saving mode (the default of count) returns exactly the number of integer points: the fixed-point accumulation of the residues of the cones never changes the rounded result.", "quantifier": "all dimensions, polytopes, numbers of cones, options, triangulations, short vectors and random vectors", "why_tests_cant": "The domain is infinite; a test samples finitely many values.", "anchors": [{"file": "code/latte/Residue.cpp", "symbols": ["Residue_Single_Cone"]}, {"file": "code/latte/barvinok/dec.cpp", "symbols": ["decomposeAndComputeResidue", "Standard_Single_Cone_Parameters::ConsumeCone"]}, {"file": "code/latte/count.cpp", "symbols": ["mainCountDriver"]}]}
{"id": "C77", "title": "The cone method computes volumes and integrals of rational polytopes", "statement": "For a bounded polytope with rational vertices given by its tangent cones, the volume by the cone method is exactly the volume, the integral of a sum of powers of linear forms or of a polynomial with different monomials is exactly the integral (limits of Riemann sums), in lowest terms, whatever rand() returns; dilating to integer vertices, triangulating and drawing again do not change the result. The only other outcome is that the program is still drawing random vectors.", "quantifier": "all dimensions, rational polytopes, triangulations, polynomials, sums of powers of linear forms and random number sequences", "why_tests_cant": "The domain is infinite; a test samples finitely many values.", "anchors": [{"file": "code/latte/valuation/PolytopeValuation.cpp", "symbols": ["PolytopeValuation::findVolumeUsingLawrence", "PolytopeValuation::findVolume", "PolytopeValuation::findIntegral", "PolytopeValuation::findIntegralPolynomialToLinearForms", "PolytopeValuation::triangulatePolytopeVertexRayCone", "PolytopeValuation::dilatePolytopeVertexRays"]}]}
{"id": "C78", "title": "Triangulations triangulate", "statement": "Triangulating a full-dimensional pointed or non-pointed cone with cddlib (random or Delone heights), the cones delivered are generated by linearly independent subsets of the given rays, cover the cone, and no two overlap in an open set; with --nonsimplicial-subdivision the same without independence. In particular the cone of outer normals at a vertex is triangulated. The only other outcomes are an error reported by cddlib and a recursion that has not ended.", "quantifier": "all dimensions, lists of rays, options, maximal heights, random number sequences and answers of cddlib that describe the lifted cone", "why_tests_cant": "The domain is infinite; a test samples finitely many values.", "anchors": [{"file": "code/latte/triangulation/RegularTriangulationWithCddlib.cpp", "symbols": ["triangulate_cone_with_cddlib", "cone_from_ray_set"]}, {"file": "code/latte/triangulation/RegularTriangulation.cpp", "symbols": ["random_height", "biased_random_height", "delone_height"]}, {"file": "code/latte/triangulation/triangulate.cpp", "symbols": ["triangulateCone"]}]}
{"id": "C79", "title": "Short vectors for the decomposition are primitive, best possible and short", "statement": "For a cone with independent rays, the vector that ComputeOmega chooses is an integer vector without common divisor; the first choice minimises the largest index among the rows of the transformation matrix, the second among all their combinations with coefficients from -5 to 4 (below 1000000 and 100000000); if NTL's basis is LLL-reduced, both lower the index when it is large, and up to dimension 5 at least one always does, so that decomposition never stops on an assertion there. The only failure is the overflow of an int counter from dimension 10 on.", "quantifier": "all dimensions, all cones with independent rays, all lattice bases LLL may return", "why_tests_cant": "The domain is infinite; a test samples finitely many values.", "anchors": [{"file": "code/latte/barvinok/ComputeOmega.cpp", "symbols": ["ComputeOmega", "norm"]}, {"file": "code/latte/barvinok/barvinok.cpp", "symbols": ["barvinokStep"]}, {"file": "code/latte/convert.cpp", "symbols": ["createFacetMatrix"]}]}
{"id": "C80", "title": "count is right with LattE's own triangulation and short vectors", "statement": "For a polytope given by inequalities and its vertices, count with dual decomposition, the regular triangulation with cddlib and LattE's choice of short vectors, relying only on what the libraries (cddlib, NTL, rand) promise: whatever number is returned is the number of integer points; up to dimension 5, with a reducing LLL, a number is returned as soon as one of the vectors tried avoids finitely many hyperplanes.", "quantifier": "all polytopes, all results the libraries may give, all streams of random numbers", "why_tests_cant": "The domain is infinite; a test samples finitely many values.", "anchors": [{"file": "code/latte/count.cpp", "symbols": ["main"]}, {"file": "code/latte/barvinok/barvinok.cpp", "symbols": ["barvinokDecomposition_Single", "barvinokStep"]}, {"file": "code/latte/barvinok/ComputeOmega.cpp", "symbols": ["ComputeOmega"]}, {"file": "code/latte/triangulation/RegularTriangulationWithCddlib.cpp", "symbols": ["triangulate_cone_with_cddlib"]}]}
{"id": "C81", "title": "count obeys its command line", "statement": "Every option that the help text lists has the effect the help text gives, the last one counts, options may stand in any order, the one remaining argument is the input file, and everything else (unknown options, no input, two inputs, bad numbers) is an error.", "quantifier": "all command lines", "why_tests_cant": "The domain is infinite; a test samples finitely many values.", "anchors": [{"file": "code/latte/count.cpp", "symbols": ["mainCountDriver"]}, {"file": "code/latte/ReadPolyhedron.cpp", "symbols": ["ReadPolyhedronData::parse_option"]}, {"file": "code/latte/triangulation/triangulate.cpp", "symbols": ["parse_standard_triangulation_option"]}]}
{"id": "C82", "title": "integrate computes what the command line asks for", "statement": "integrate runs exactly the methods asked for (cone decomposition, triangulation, by default all of them) for the value asked for, on the input and the integrand named on the command line.", "quantifier": "all command lines", "why_tests_cant": "The domain is infinite; a test samples finitely many values.", "anchors": [{"file": "code/latte/valuation/valuation.cpp", "symbols": ["mainValuationDriver", "IntegrationInput::processUserInput"]}]}
{"id": "C83", "title": "Empty input is recognised, and only empty input", "statement": "Before anything is computed, an input file in LattE format is tested for emptiness: a file that describes the empty set is rejected, and a file that describes a nonempty set is not, whatever the order and number of its linearity and nonnegative lines and whether its entries are integers or fractions.", "quantifier": "all input files, under a contract for cdd's linear programming", "why_tests_cant": "The domain is infinite; a test samples finitely many values.", "anchors": [{"file": "code/latte/CheckEmpty.cpp", "symbols": ["CheckEmpty"]}]}
{"id": "C84", "title": "The vertices and edges that cdd reports are the ones computed with", "statement": "The inequalities sent to the program cdd are those of the polytope; the vertices and neighbours that cdd returns, in either of its two formats, are read so that every vertex cone has the reported vertex and its rays are exactly the primitive integer directions to its neighbours; a polytope that is one point or empty gives 1 or 0; an unbounded polyhedron is reported as such.", "quantifier": "all dimensions, systems of inequalities, tables of vertices, neighbour lists and layouts of the files", "why_tests_cant": "The domain is infinite; a test samples finitely many values.", "anchors": [{"file": "code/latte/vertices/cdd.cpp", "symbols": ["createCddIneFile", "readCddExtFile", "readCddEadFile", "computeVertexCones"]}, {"file": "code/latte/rational.cpp", "symbols": ["ReadCDD"]}]}
{"id": "C85", "title": "count FILE prints the number of integer points described by the file", "statement": "For an input file that describes a bounded set (matrix, linearity and nonnegative lines), the program count started with the name of the file prints exactly the number of integer points of the set, from reading the file through the emptiness test, redundancy removal, elimination of the equations, vertices, triangulation and decomposition to the substitution; an empty set is rejected. A number is always printed, except that a triangulation is not found, an assertion about short vectors fails, or every random vector tried is orthogonal to one of finitely many vectors.", "quantifier": "all input files, all answers of cdd, cddlib, NTL and rand() that keep their contracts", "why_tests_cant": "The domain is infinite; a test samples finitely many values.", "anchors": [{"file": "code/latte/count.cpp", "symbols": ["mainCountDriver"]}, {"file": "code/latte/ReadPolyhedron.cpp", "symbols": ["ReadPolyhedronData::read_polyhedron_hairy", "ReadPolyhedronData::PolyhedronFromHrepMatrix", "ReadPolyhedronData::polyhedronRedundancyCheck", "ReadPolyhedronData::projectOutVariables", "ReadPolyhedronData::matrixToVerticesOrCones"]}, {"file": "code/latte/latte_cddlib.cpp", "symbols": ["cddlib_matrix_to_equations_and_inequalities"]}]}
{"id": "C86", "title": "Subcone files keep the cones", "statement": "Cones whose rays are rays of a master cone, printed to a subcone file and read again with the same master cone, come back with exactly their rays, in order, with the vertex of the master cone; whenever the writing program stops, the file gives cones that were written, or is rejected; files with another number of rays, entries other than 0 and 1 or too few entries are rejected, and so is printing a cone with a foreign ray.", "quantifier": "all master cones, lists of cones, index hints, layouts of the file, histories of writing and updating the count, and points where the writer stops", "why_tests_cant": "The claim is about every finite sequence of calls; tests run a few sequences.", "anchors": [{"file": "code/latte/ReadSubcones.cpp", "symbols": ["ReadSubcones", "cone_from_ray_indicator", "IncrementalVectorFileWriter::WriteVector", "IncrementalVectorFileWriter::UpdateNumVectors", "SubconePrintingConeConsumer::ConsumeCone"]}]}
{"id": "C87", "title": "Vertices and facets with 4ti2 are right, and so is the count from them", "statement": "For a polyhedron without lines the vertex cones computed with 4ti2 have every vertex exactly once, with the primitive outer normals of exactly the inequalities tight there; the polyhedron is reported unbounded exactly if it contains a ray; a polyhedron with a line stops the program. `count FILE` with these cones (the default) prints the number of integer points of the nonempty bounded set described by the file.", "quantifier": "every system of inequalities, every correct answer of 4ti2, every file, every stream of random numbers", "why_tests_cant": "The domain is infinite; a test samples finitely many values.", "anchors": [{"file": "code/latte/VertexConesWith4ti2.cpp", "symbols": ["computeVertexConesWith4ti2"]}, {"file": "code/latte/latte_4ti2.cpp", "symbols": ["rays_to_4ti2_VectorArray"]}, {"file": "code/latte/count.cpp", "symbols": ["mainCountDriver"]}]}
{"id": "C88", "title": "The bounds shown by the approximation enclose the number of points", "statement": "With --approximate, every pair of bounds shown while the cones are refined encloses the number of integer points of the polytope, and the last pair is exactly that number; the bounds of a single cone, computed without enumerating its parallelepiped, enclose its contribution. The run ends, whatever the order in which the cones are refined, if the heap is large enough and the vector is not orthogonal to one of finitely many vectors.", "quantifier": "every polytope, random vector, index bound, size of the heap, order of refinement, and every answer of the libraries that keeps their contracts", "why_tests_cant": "The domain is infinite; a test samples finitely many values.", "anchors": [{"file": "code/latte/ExponentialApprox.cpp", "symbols": ["decomposeAndWriteExponentialSample", "ConeApproximationData::ConeApproximationData", "Exponential_Single_Cone_Parameters", "Write_Exponential_Sample_Formula_Single_Cone_Parameters::EvaluateCone", "Write_Exponential_Sample_Formula_Single_Cone_Parameters::ConsumeCone"]}, {"file": "code/latte/count.cpp", "symbols": ["mainCountDriver"]}]}
{"id": "C89", "title": "Digging returns an optimal integer point and the number of optimal points", "statement": "latte-maximize and latte-minimize return an integer point of the polytope at which no other integer point has a larger (smaller) cost, and print the number of integer points with that cost. The search ends whenever there is an integer point. If some ray is orthogonal to the cost a perturbed cost is used, and the point returned is still optimal for the cost that was given.", "quantifier": "every polytope, signed unimodular decomposition of it, cost vector and sequence of random perturbations; for the heaps, every history of additions and removals", "why_tests_cant": "The domain is infinite; a test samples finitely many values.", "anchors": [{"file": "code/latte/ConeInfo.cpp", "symbols": ["ConeInfo::ConeInfo", "ConeInfo::Calculate_Next_Highest_Term", "ConeInfo::Calculate_Integral_Point", "ConeInfo::Calculate_Pertubation", "Vector_Heap::Add_Heap", "Vector_Heap::Pop_Top_Heap", "ConeInfo_Heap::Add_Heap", "ConeInfo_Heap::Pop_Top_Heap"]}, {"file": "code/latte/IntegralHull.cpp", "symbols": ["SolveIP"]}, {"file": "code/latte/maximize.cpp", "symbols": ["main"]}, {"file": "code/latte/minimize.cpp", "symbols": ["main"]}]}
{"id": "C90", "title": "The number of points from the list of all cones is exact", "statement": "When all unimodular cones of a polytope are kept in memory, the number reported is the number of its integer points, however many cones there are. The substitution used is the lexicographically first vector from 0 on with entries -1, 0, 1, 2 that is orthogonal to no ray, unless 5000 such vectors fail; then random vectors are tried, and any of them that is orthogonal to no ray gives the same number. latte-maximize and latte-minimize use the number to stop when there is no integer point and otherwise go on to an optimum.", "quantifier": "every list of cones with one point and the same number of rays each, every polytope with a unimodular decomposition, every sequence of random vectors", "why_tests_cant": "The domain is infinite; a test samples finitely many values.", "anchors": [{"file": "code/latte/Residue.cpp", "symbols": ["Residue"]}, {"file": "code/latte/count.cpp", "symbols": ["mainCountDriver"]}, {"file": "code/latte/maximize.cpp", "symbols": ["main"]}, {"file": "code/latte/minimize.cpp", "symbols": ["main"]}, {"file": "code/latte/barvinok/dec.cpp", "symbols": ["decomposeCones"]}]}
{"id": "C91", "title": "Converting inequality files of cdd keeps the polyhedron", "statement": "ConvertCDDineToLatte turns a file of inequalities for cdd into a file that LattE reads as the same polyhedron: row by row the given row times the smallest positive integer that makes it integral, and a point satisfies the new file if and only if it satisfies the old one; equations stay equations, decimal numbers keep their value, and the files that LattE itself writes for cdd are accepted.", "quantifier": "every file of inequalities, every number of rows and columns, every integer, fraction or decimal number", "why_tests_cant": "The domain is infinite; a test samples finitely many values.", "anchors": [{"file": "code/latte/convertCDD_ine_to_latte.cpp", "symbols": ["main"]}, {"file": "code/latte/rational.cpp", "symbols": ["RationalNTL"]}]}
{"id": "C92", "title": "The integer hull computed by latte-maximize and latte-minimize is complete", "statement": "The integer hull computation ends; every vector of the list it prints is an integer point of the polytope, and every integer point of the polytope is a convex combination of the list, whatever random costs are drawn.", "quantifier": "every polytope, every sequence of random costs, every number of rounds", "why_tests_cant": "The domain is infinite; a test samples finitely many values.", "anchors": [{"file": "code/latte/IntegralHull.cpp", "symbols": ["IntegralHull", "GetHRepresentation", "GetVertices", "CheckVertices", "Push_Vector", "SolveIP"]}, {"file": "code/latte/maximize.cpp", "symbols": ["main"]}, {"file": "code/latte/minimize.cpp", "symbols": ["main"]}]}
{"id": "C93", "title": "hilbert-from-rays writes vectors that generate the integer points of the cone", "statement": "hilbert-from-rays ends, and the vectors it writes are pairwise different integer points of the cone generated by the given rays, such that every integer point of the cone is a sum of given rays and written vectors, whatever triangulations are used and wherever the time limit strikes.", "quantifier": "every list of rays of a pointed cone, every sequence of triangulations and of time limits, every depth of subdivision", "why_tests_cant": "The claim is about every finite sequence of calls; tests run a few sequences.", "anchors": [{"file": "code/latte/normalize/normalize.cpp", "symbols": ["normalize_main", "handle_cone", "insert_hilbert_basis_element", "enumerate_simplicial_cone_with_latte", "cone_unimodular", "RecursiveNormalizer"]}, {"file": "code/latte/dual.cpp", "symbols": ["dualizeCone", "computeDetAndFacetsOfSimplicialCone"]}, {"file": "code/latte/genFunction/piped.cpp", "symbols": ["pointsInParallelepiped"]}]}
{"id": "C94", "title": "Dualizing a cone gives its polar cone, with either library", "statement": "Dualizing a cone that is given by its rays gives the polar cone: the new rays and subspace generate exactly the vectors with nonpositive product with all old rays, and the old rays are its facets; dualizing again gives back the cone with facets and equations that describe it, so that the system handed to zsolve has exactly the integer points of the cone as its solutions.", "quantifier": "every list of rays, every dimension, simplicial or not, full-dimensional or not, dualization with cdd or 4ti2", "why_tests_cant": "The domain is infinite; a test samples finitely many values.", "anchors": [{"file": "code/latte/dual.cpp", "symbols": ["dualizeCone", "dualizeCone_with_cdd", "computeDetAndFacetsOfSimplicialCone"]}, {"file": "code/latte/DualizationWith4ti2.cpp", "symbols": ["dualizeCone_with_4ti2", "listVectors_from_VectorArray"]}, {"file": "code/latte/latte_4ti2.cpp", "symbols": ["rays_to_4ti2_VectorArray"]}, {"file": "code/latte/latte_4ti2_zsolve.cpp", "symbols": ["facets_to_4ti2_zsolve_LinearSystem"]}]}
{"id": "C95", "title": "Triangulating a cone with 4ti2 delivers a triangulation", "statement": "Triangulating a cone with 4ti2 ends and delivers simplicial cones, each generated by some of the given rays, that cover the cone and any two of which lie on different sides of a hyperplane, for random, biased, squared-length and prescribed heights and whatever random numbers are drawn; with --nonsimplicial-subdivision the cones need not be simplicial.", "quantifier": "every list of rays spanning the space, in every dimension, every choice of heights, every stream of random numbers", "why_tests_cant": "The claim is about every finite sequence of calls; tests run a few sequences.", "anchors": [{"file": "code/latte/triangulation/RegularTriangulationWith4ti2.cpp", "symbols": ["triangulate_cone_with_4ti2", "lindep_heights_p", "cone_from_ray_BitSet", "random_regular_triangulation_with_4ti2", "refined_delone_triangulation_with_4ti2"]}, {"file": "code/latte/triangulation/RegularTriangulation.cpp", "symbols": ["random_height", "biased_random_height", "delone_height", "prescribed_height"]}, {"file": "code/latte/triangulation/triangulate.cpp", "symbols": ["triangulateCone"]}, {"file": "code/latte/latte_4ti2.cpp", "symbols": ["rays_to_4ti2_VectorArray"]}]}
{"id": "C96", "title": "A short vector off the hyperplane is found and used", "statement": "The subspace-avoiding choice of short vectors always finds an integer vector whose last coordinate is not 0, the best of the vectors of the reduced basis that have this property; hence each ray of each cone of a subspace-avoiding decomposition is a ray of the cone given or has a nonzero last coordinate, and the index goes down until the bound asked for is reached.", "quantifier": "every cone with independent rays in every dimension, every reduced basis the LLL algorithm may return, every mode of decomposition and every sequence of answers of the consumer", "why_tests_cant": "The domain is infinite; a test samples finitely many values.", "anchors": [{"file": "code/latte/barvinok/SubspaceAvoidingDecomposition.cpp", "symbols": ["ComputeShortVectorAvoidingSubspace", "max_norm"]}, {"file": "code/latte/barvinok/barvinok.cpp", "symbols": ["barvinokStep", "barvinok_DFS"]}]}
{"id": "C97", "title": "Triangulations computed by TOPCOM are passed on unchanged", "statement": "Triangulating a cone with TOPCOM hands the program exactly the rays of the cone and delivers exactly the simplices it prints, so that the cones form a triangulation whenever the program prints one; output that is not a triangulation of these rays is rejected with a message; and all triangulations are returned when all are asked for.", "quantifier": "every list of rays, every text the TOPCOM program may print, truncated or malformed ones included", "why_tests_cant": "The domain is infinite; a test samples finitely many values.", "anchors": [{"file": "code/latte/triangulation/TriangulationWithTOPCOM.cpp", "symbols": ["write_TOPCOM_point_configuration", "read_TOPCOM_triangulation", "triangulate_cone_with_TOPCOM", "all_triangulations_of_cone_with_TOPCOM"]}, {"file": "code/latte/cone_consumer.cpp", "symbols": ["CollectingConeConsumer"]}]}
{"id": "C98", "title": "The univariate rational function is the generating function graded by the last coordinate", "statement": "When the generating function is to be written in one variable t that stands for the last coordinate, the file assigns to HS an expression that any reader of arithmetic takes as the sum of rational functions of the cones with 1 for all variables but the last: its value is the sum of t^(last coordinate) over the points, its power series counts the points of each height (the Ehrhart series for the cone over a polytope), and the program stops instead of writing a division by zero.", "quantifier": "every dimension, every list of cones with any coefficients, rays and points, every value of t and every coefficient of the series", "why_tests_cant": "The domain is infinite; a test samples finitely many values.", "anchors": [{"file": "code/latte/TrivialSubst.cpp", "symbols": ["TrivialMonomialSubstitutionMapleOutput_Single", "TrivialMonomialSubstitutionMapleOutput"]}, {"file": "code/latte/count.cpp", "symbols": ["mainCountDriver"]}]}
{"id": "C99", "title": "Completing a triangulation of the boundary avoids the subspace", "statement": "Completing the simplicial cones on the boundary of a full-dimensional cone with one interior vector gives a triangulation of the cone whose facets avoid the subspace where the last coordinate is 0: the vector that is chosen lies in the interior, each facet of each completed cone has normals with a last coordinate that is not 0, exactly the completed cones that are full-dimensional are delivered, no assertion fails for cones with independent rays, and the search for the vector ends.", "quantifier": "every dimension, every list of boundary cones, every lattice reduction, every number of steps of the search", "why_tests_cant": "The domain is infinite; a test samples finitely many values.", "anchors": [{"file": "code/latte/triangulation/BoundaryTriangulation.cpp", "symbols": ["alpha_basis", "singularity_avoiding", "construct_interior_vector", "complete_boundary_triangulation_of_cone_with_subspace_avoiding_facets"]}, {"file": "code/latte/triangulation/BoundaryTriangulation.h", "symbols": ["boundary_triangulation_of_cone_with_subspace_avoiding_facets"]}]}
