{"id": "C01", "title": "Irreducible decomposition intersects to the ideal", "statement": "Frobby::irreducibleDecompositionAsMonomials on a non-zero-generator ideal I returns true and writes one ideal to the consumer; decoding every written monomial c as the irreducible ideal generated by x_i^{c_i} for c_i>0, a monomial lies in I if and only if it lies in every decoded irreducible ideal.", "quantifier": "every number of variables, every finite list of generators (any order, duplicates and redundant generators allowed) and every nonnegative exponent of any size", "why_tests_cant": "The input space is infinite (all ideals, all exponents); a test fixes one ideal, and a wrong split, base case or simplification can misbehave only on ideals of a particular shape.", "anchors": ["src/frobby.cpp: Frobby::irreducibleDecompositionAsMonomials", "src/SliceFacade.cpp: computeIrreducibleDecomposition, produceEncodedIrrDecom", "src/MsmStrategy.cpp", "src/MsmSlice.cpp", "src/Slice.cpp", "src/TermTranslator.cpp"]}
{"id": "C02", "title": "Irreducible decomposition is irredundant and duplicate free", "statement": "No written component is written twice, and none contains another one: removing any component from the output changes the intersection.", "quantifier": "every number of variables, every finite list of generators (any order, duplicates and redundant generators allowed) and every nonnegative exponent of any size", "why_tests_cant": "The input space is infinite (all ideals, all exponents); a test fixes one ideal, and a wrong split, base case or simplification can misbehave only on ideals of a particular shape.", "anchors": ["src/frobby.cpp: Frobby::irreducibleDecompositionAsMonomials", "src/MsmStrategy.cpp: processSlice", "src/SliceStrategyCommon.cpp: pivotSplit"]}
{"id": "C03", "title": "Irreducible decomposition as ideals", "statement": "Frobby::irreducibleDecompositionAsIdeals writes one ideal (idealBegin, pure powers, idealEnd) per irreducible component, its generators are exactly the pure powers of that component; for the ideal without generators exactly one empty ideal is written, for <1> nothing is written.", "quantifier": "every number of variables, every finite list of generators (any order, duplicates and redundant generators allowed) and every nonnegative exponent of any size", "why_tests_cant": "The input space is infinite (all ideals, all exponents); a test fixes one ideal, and a wrong split, base case or simplification can misbehave only on ideals of a particular shape.", "anchors": ["src/frobby.cpp: irreducibleDecompositionAsIdeals, IrreducibleIdealDecoder"]}
{"id": "C04", "title": "Maximal standard monomials are exact", "statement": "Frobby::maximalStandardMonomials writes one ideal whose generators are, each exactly once, the monomials m that are not in the ideal while m*x_i is in the ideal for every variable x_i.", "quantifier": "every number of variables, every finite list of generators (any order, duplicates and redundant generators allowed) and every nonnegative exponent of any size", "why_tests_cant": "The input space is infinite (all ideals, all exponents); a test fixes one ideal, and a wrong split, base case or simplification can misbehave only on ideals of a particular shape.", "anchors": ["src/frobby.cpp: Frobby::maximalStandardMonomials", "src/SliceFacade.cpp: computeMaximalStandardMonomials", "src/MsmSlice.cpp: baseCase, twoVarBaseCase, oneMoreGeneratorBaseCase, twoNonMaxBaseCase"]}
{"id": "C05", "title": "The slice algorithm terminates", "statement": "For every input ideal and every pivot rule that returns a legal pivot, the slice recursion reaches base cases only, after finitely many splits; no computation of the library loops forever.", "quantifier": "every ideal, every subtract ideal, every legal choice of pivots in every history of splits", "why_tests_cant": "Termination is a statement about all executions; a test that hangs on one ideal says nothing about another.", "anchors": ["src/TaskEngine.cpp: runTasks", "src/MsmStrategy.cpp: processSlice", "src/SliceStrategyCommon.cpp: pivotSplit"]}
{"id": "C06", "title": "Results do not depend on the split strategy", "statement": "The set of monomials produced by the slice algorithm is the same for every pivot selection rule, with and without simplification, and with and without independence splits.", "quantifier": "every ideal and every pair of option settings / pivot rules", "why_tests_cant": "Strategies are meant as performance choices only; equality of results for all of them on all ideals cannot be enumerated.", "anchors": ["src/SplitStrategy.cpp", "src/SliceFacade.cpp: runSliceAlgorithmWithOptions", "src/MsmStrategy.cpp"]}
{"id": "C07", "title": "Alexander dual is exact", "statement": "Frobby::alexanderDual with a point a divisible by the lcm of the minimal generators returns true and writes, each exactly once, the minimal generators of the dual: a monomial m (with m dividing a componentwise or not) lies in the written ideal iff for every generator g of I there is a variable i with g_i>0 and m_i >= a_i+1-g_i.", "quantifier": "every number of variables, every finite list of generators (any order, duplicates and redundant generators allowed) and every nonnegative exponent of any size; every reflection point divisible by the lcm of the minimal generators", "why_tests_cant": "The input space is infinite (all ideals, all exponents); a test fixes one ideal, and a wrong split, base case or simplification can misbehave only on ideals of a particular shape.", "anchors": ["src/frobby.cpp: Frobby::alexanderDual", "src/SliceFacade.cpp: computeAlexanderDual", "src/TermTranslator.cpp: dualize"]}
{"id": "C08", "title": "Alexander dual default point", "statement": "With a null point Frobby::alexanderDual behaves exactly as with the lcm of the minimal generators (non-minimal generators do not count), always returning true.", "quantifier": "every number of variables, every finite list of generators (any order, duplicates and redundant generators allowed) and every nonnegative exponent of any size", "why_tests_cant": "The input space is infinite (all ideals, all exponents); a test fixes one ideal, and a wrong split, base case or simplification can misbehave only on ideals of a particular shape.", "anchors": ["src/frobby.cpp: Frobby::alexanderDual", "src/SliceFacade.cpp: computeAlexanderDual, getLcmOfIdeal"]}
{"id": "C09", "title": "Alexander dual rejects bad points silently", "statement": "Frobby::alexanderDual returns false, and makes no call on the consumer, exactly when the point is not divisible by the lcm of the minimal generators; the Ideal overload also returns false without output unless the reflection ideal has exactly one generator and the same number of variables.", "quantifier": "every number of variables, every finite list of generators (any order, duplicates and redundant generators allowed) and every nonnegative exponent of any size; every point", "why_tests_cant": "The input space is infinite (all ideals, all exponents); a test fixes one ideal, and a wrong split, base case or simplification can misbehave only on ideals of a particular shape.", "anchors": ["src/frobby.cpp: Frobby::alexanderDual (both overloads)", "src/SliceFacade.cpp: computeAlexanderDual(point)"]}
{"id": "C10", "title": "Alexander duality is an involution", "statement": "Feeding the generators written by alexanderDual(I,a) back into alexanderDual with the same point a writes exactly the minimal generators of I (for I proper and non-zero).", "quantifier": "every number of variables, every finite list of generators (any order, duplicates and redundant generators allowed) and every nonnegative exponent of any size; every valid point", "why_tests_cant": "Relates two runs of the algorithm on data-dependent inputs, for all ideals.", "anchors": ["src/frobby.cpp: Frobby::alexanderDual"]}
{"id": "C11", "title": "Associated primes are exact", "statement": "Frobby::associatedPrimes writes each associated prime of the ideal exactly once, as an ideal generated by variables: the prime generated by the variable set s is written iff some monomial m satisfies: for all t, m*t in I iff t is divisible by a variable in s.", "quantifier": "every number of variables, every finite list of generators (any order, duplicates and redundant generators allowed) and every nonnegative exponent of any size", "why_tests_cant": "The input space is infinite (all ideals, all exponents); a test fixes one ideal, and a wrong split, base case or simplification can misbehave only on ideals of a particular shape.", "anchors": ["src/frobby.cpp: Frobby::associatedPrimes", "src/SliceFacade.cpp: computeAssociatedPrimes"]}
{"id": "C12", "title": "Primary decomposition is exact", "statement": "Frobby::primaryDecomposition writes one ideal per associated prime; each is the intersection of the irreducible components with that support; their intersection is the input ideal and each generator list is minimal.", "quantifier": "every number of variables, every finite list of generators (any order, duplicates and redundant generators allowed) and every nonnegative exponent of any size", "why_tests_cant": "The input space is infinite (all ideals, all exponents); a test fixes one ideal, and a wrong split, base case or simplification can misbehave only on ideals of a particular shape.", "anchors": ["src/frobby.cpp: Frobby::primaryDecomposition", "src/SliceFacade.cpp: computePrimaryDecomposition"]}
{"id": "C13", "title": "Multigraded Hilbert-Poincare numerator is exact", "statement": "The polynomial written by Frobby::multigradedHilbertPoincareSeries is the numerator of the series: for every monomial m its total coefficient equals the sum over subsets s of the variables with x^s dividing m of (-1)^|s| [m/x^s not in I]; no term is written with coefficient zero and no monomial twice.", "quantifier": "every number of variables, every finite list of generators (any order, duplicates and redundant generators allowed) and every nonnegative exponent of any size; every monomial", "why_tests_cant": "The input space is infinite (all ideals, all exponents); a test fixes one ideal, and a wrong split, base case or simplification can misbehave only on ideals of a particular shape.", "anchors": ["src/frobby.cpp: multigradedHilbertPoincareSeries", "src/HilbertStrategy.cpp", "src/HilbertSlice.cpp", "src/HilbertBasecase.cpp"]}
{"id": "C14", "title": "Univariate Hilbert-Poincare numerator is exact", "statement": "The polynomial written by Frobby::univariateHilbertPoincareSeries is the image of the multigraded numerator under x_i -> t: for each degree d the written coefficient is the sum of the multigraded coefficients of monomials of total degree d, each degree appearing at most once, without zero coefficients.", "quantifier": "every number of variables, every finite list of generators (any order, duplicates and redundant generators allowed) and every nonnegative exponent of any size", "why_tests_cant": "The input space is infinite (all ideals, all exponents); a test fixes one ideal, and a wrong split, base case or simplification can misbehave only on ideals of a particular shape.", "anchors": ["src/frobby.cpp: univariateHilbertPoincareSeries", "src/TotalDegreeCoefTermConsumer.cpp", "src/UniHashPolynomial.cpp"]}
{"id": "C15", "title": "Krull dimension is exact", "statement": "Frobby::dimension sets -1 if 1 is in the ideal and otherwise the largest size of a set of variables such that no generator is a product of powers of only those variables.", "quantifier": "every number of variables, every finite list of generators (any order, duplicates and redundant generators allowed) and every nonnegative exponent of any size", "why_tests_cant": "Branch-and-bound pruning may lose the optimum only for special hypergraphs; all ideals must be covered.", "anchors": ["src/frobby.cpp: Frobby::dimension", "src/IdealFacade.cpp: computeDimension", "src/SizeMaxIndepSetAlg.cpp"]}
{"id": "C16", "title": "Codimension complements the dimension", "statement": "Frobby::codimension equals the number of variables minus the dimension, equals the minimum support size among the irreducible components when the ideal is proper, and is the number of variables plus one for <1>.", "quantifier": "every number of variables, every finite list of generators (any order, duplicates and redundant generators allowed) and every nonnegative exponent of any size", "why_tests_cant": "The input space is infinite (all ideals, all exponents); a test fixes one ideal, and a wrong split, base case or simplification can misbehave only on ideals of a particular shape.", "anchors": ["src/frobby.cpp: Frobby::codimension"]}
{"id": "C17", "title": "Standard monomial program is solved optimally", "statement": "Frobby::solveStandardMonomialProgram returns true iff the ideal has a maximal standard monomial, and then writes exactly one monomial, a maximal standard monomial whose inner product with l is maximal among all maximal standard monomials.", "quantifier": "every number of variables, every finite list of generators (any order, duplicates and redundant generators allowed) and every nonnegative exponent of any size; every integer vector l (negative entries allowed)", "why_tests_cant": "Bound-based pruning must never discard the optimum, for any ideal, any objective and any order of slices.", "anchors": ["src/frobby.cpp: solveStandardMonomialProgram", "src/OptimizeStrategy.cpp", "src/TermGrader.cpp", "src/SliceFacade.cpp: solveProgram"]}
{"id": "C18", "title": "Standard monomial program writes nothing when infeasible", "statement": "When the ideal has no maximal standard monomials solveStandardMonomialProgram returns false and nothing is written to the consumer (as documented in frobby.h).", "quantifier": "every number of variables, every finite list of generators (any order, duplicates and redundant generators allowed) and every nonnegative exponent of any size", "why_tests_cant": "Must hold for every infeasible ideal.", "anchors": ["src/frobby.h: solveStandardMonomialProgram", "src/SliceFacade.cpp: solveProgram"]}
{"id": "C19", "title": "Generators are entered exponent by exponent", "statement": "After any sequence of Ideal::addExponent calls the ideal holds the called exponents grouped, in order, into rows of varCount entries, an incomplete last row being padded with zeros; with zero variables each call adds the generator 1. Copies and assignments are independent of later changes to the original.", "quantifier": "every history of addExponent / copy / assign calls, every number of variables", "why_tests_cant": "It is a statement about all call histories.", "anchors": ["src/frobby.cpp: Frobby::Ideal::addExponent, operator=, copy constructor", "src/BigIdeal.cpp: newLastTerm"]}
{"id": "C20", "title": "Consumer protocol", "statement": "Every API call drives the consumer with a sequence of blocks idealBegin(n) consume* idealEnd (respectively polynomialBegin, consume*, polynomialEnd), never nested, never consume outside a block, every vector having n entries.", "quantifier": "every number of variables, every finite list of generators (any order, duplicates and redundant generators allowed) and every nonnegative exponent of any size; every API function", "why_tests_cant": "A protocol violation may occur on one path only.", "anchors": ["src/frobby.cpp: ExternalIdealConsumerWrapper, ExternalPolynomialConsumerWrapper, IrreducibleIdealDecoder"]}
{"id": "C21", "title": "Results depend only on the ideal", "statement": "Permuting the generators, duplicating them or adding redundant generators does not change the set of monomials (or polynomial, dimension, optimal value) the API writes.", "quantifier": "every pair of generator lists generating the same ideal", "why_tests_cant": "Relational property over pairs of inputs.", "anchors": ["src/CommonParamsHelper.cpp: setIdeal", "src/Ideal.cpp: minimize"]}
{"id": "C22", "title": "Minimization is exact", "statement": "Minimizing a generator list yields exactly the elements not strictly divisible by another element, each once, generating the same ideal, whichever of the three code paths (two variables, fewer than 1000 generators, tree) is taken.", "quantifier": "every number of variables, every finite list of generators (any order, duplicates and redundant generators allowed) and every nonnegative exponent of any size", "why_tests_cant": "The tree path only runs above 1000 generators; its partition loop has many boundary cases.", "anchors": ["src/Minimizer.cpp: minimize, simpleMinimize, twoVarMinimize, TreeNode"]}
{"id": "C23", "title": "Colon by a monomial is exact", "statement": "Colon-and-reminimize applied to a minimally generated ideal I and a monomial p yields the minimal generators of I:p = {m : m*p in I}, and reports 'unchanged' only if the number of generators is unchanged.", "quantifier": "every minimally generated ideal and every monomial p", "why_tests_cant": "The input space is infinite (all ideals, all exponents); a test fixes one ideal, and a wrong split, base case or simplification can misbehave only on ideals of a particular shape.", "anchors": ["src/Minimizer.cpp: colonReminimize (both)", "src/Ideal.cpp: colonReminimize"]}
{"id": "C24", "title": "Exponent compression is faithful", "statement": "Translating an ideal with arbitrary big exponents to small exponents and back is the identity on generators, preserves divisibility both ways, and no exponent larger than the number of generators plus one is ever produced.", "quantifier": "every number of variables, every finite list of generators (any order, duplicates and redundant generators allowed) and every nonnegative exponent of any size", "why_tests_cant": "The input space is infinite (all ideals, all exponents); a test fixes one ideal, and a wrong split, base case or simplification can misbehave only on ideals of a particular shape.", "anchors": ["src/TermTranslator.cpp: extractExponents, shrinkExponent, getExponent"]}
{"id": "C25", "title": "Simplification preserves slice content", "statement": "Inner slice/outer slice/normalize/lower bound/prune operations never lose, add or duplicate a result monomial.", "quantifier": "every slice (ideal, subtract, multiply) and every pivot", "why_tests_cant": "The input space is infinite (all ideals, all exponents); a test fixes one ideal, and a wrong split, base case or simplification can misbehave only on ideals of a particular shape.", "anchors": ["src/Slice.cpp", "src/MsmSlice.cpp"]}
{"id": "C26", "title": "Pivot strategies return legal pivots", "statement": "Each pivot strategy (minimum, median, maximum, mingen, gcd, degree, random choice replaced by any choice) returns on every slice that is not a base case a monomial different from 1, not in the ideal, not in the subtract ideal, and dividing lcm/x_1..x_n strictly enough to make progress.", "quantifier": "every non-base-case slice", "why_tests_cant": "The input space is infinite (all ideals, all exponents); a test fixes one ideal, and a wrong split, base case or simplification can misbehave only on ideals of a particular shape.", "anchors": ["src/SplitStrategy.cpp"]}
{"id": "C27", "title": "Independence splits are products", "statement": "When the variables fall into independent classes the content of the slice is exactly the product of the contents of the projected slices, each product monomial being emitted once.", "quantifier": "every ideal whose generators and subtract generators split into two variable sets", "why_tests_cant": "The input space is infinite (all ideals, all exponents); a test fixes one ideal, and a wrong split, base case or simplification can misbehave only on ideals of a particular shape.", "anchors": ["src/IndependenceSplitter.cpp", "src/MsmStrategy.cpp: MsmIndependenceSplit", "src/Projection.cpp", "src/Partition.cpp"]}
{"id": "C28", "title": "Variable partition computes connected components", "statement": "After any sequence of unions two variables are reported in the same class iff they are connected by the unions; projections onto a class are inverse to inverse projection.", "quantifier": "every number of variables and every history of union calls", "why_tests_cant": "Quantifies over all histories.", "anchors": ["src/Partition.cpp", "src/Projection.cpp"]}
{"id": "C29", "title": "Task engine runs every task exactly once", "statement": "Running the task engine executes every added task, including those added by running tasks, exactly once and in LIFO order, and the observable output equals that of the recursive evaluation.", "quantifier": "every tree of tasks", "why_tests_cant": "Schedules are unbounded.", "anchors": ["src/TaskEngine.cpp"]}
{"id": "C30", "title": "Bigatti algorithm computes the same numerator", "statement": "The Bigatti et al. Hilbert series algorithm produces the multigraded numerator for every ideal and every pivot choice that makes progress, including the generic (Scarf complex) base case.", "quantifier": "every number of variables, every finite list of generators (any order, duplicates and redundant generators allowed) and every nonnegative exponent of any size; every pivot rule", "why_tests_cant": "The input space is infinite (all ideals, all exponents); a test fixes one ideal, and a wrong split, base case or simplification can misbehave only on ideals of a particular shape.", "anchors": ["src/BigattiHilbertAlgorithm.cpp", "src/BigattiState.cpp", "src/BigattiBaseCase.cpp"]}
{"id": "C31", "title": "Euler characteristic is exact", "statement": "The pivot Euler characteristic algorithm computes, for every square free ideal, the alternating sum over subsets of generators with full lcm, i.e. the Euler characteristic of the simplicial complex.", "quantifier": "every square free monomial ideal, every number of variables, every pivot choice, every outcome of rand(); all simplification settings in which impliedDiv is not used alone; that there always is an answer: all strategies, with uniqueDiv on if the pivot is a term, and with no random choice from an empty list of candidates", "why_tests_cant": "The input space is infinite (all ideals, all exponents); a test fixes one ideal, and a wrong split, base case or simplification can misbehave only on ideals of a particular shape.", "anchors": ["src/PivotEulerAlg.cpp", "src/EulerState.cpp", "src/RawSquareFreeIdeal.cpp"]}
{"id": "C32", "title": "Packed square free terms behave as sets", "statement": "All operations on bit-packed square free terms (divides, lcm, gcd, colon, relatively prime, support size, pure test, lexicographic compare, equality, inversion, full support) equal the corresponding set operations for every number of variables, including multiples of the word size and zero.", "quantifier": "every number of variables and every pair of terms", "why_tests_cant": "Word-boundary mistakes appear only for particular variable counts.", "anchors": ["src/RawSquareFreeTerm.cpp"]}
{"id": "C33", "title": "Printing and parsing are inverse (Macaulay 2 format)", "statement": "Writing an ideal in Macaulay 2 format and reading the text back yields the same variables and the same generators in the same order.", "quantifier": "every list of distinct legal variable names, every list of generators, every exponent", "why_tests_cant": "Infinite set of texts.", "anchors": ["src/Macaulay2IOHandler.cpp", "src/IOHandlerImpl.cpp", "src/Scanner.cpp"]}
{"id": "C34", "title": "Printing and parsing are inverse (Monos formats)", "statement": "Writing an ideal in the monos and newmonos formats and reading the text back yields the same variables and generators in the same order.", "quantifier": "every list of distinct legal variable names, every list of generators, every exponent", "why_tests_cant": "Infinite set of texts.", "anchors": ["src/MonosIOHandler.cpp", "src/NewMonosIOHandler.cpp", "src/IOHandlerImpl.cpp", "src/Scanner.cpp"]}
{"id": "C35", "title": "Printing and parsing are inverse (4ti2 format)", "statement": "Writing an ideal in 4ti2 format and reading the text back yields the same variables and generators in the same order.", "quantifier": "every list of distinct legal variable names, every list of generators, every exponent", "why_tests_cant": "Infinite set of texts.", "anchors": ["src/Fourti2IOHandler.cpp", "src/Scanner.cpp"]}
{"id": "C36", "title": "Decimal exponents are read as decimal", "statement": "Reading x^d for any nonempty string d of decimal digits yields exponent equal to the decimal value of d.", "quantifier": "every digit string", "why_tests_cant": "All digit strings; the failing ones start with 0.", "anchors": ["src/InputConsumer.cpp: consumeVarExponent", "src/Scanner.cpp"]}
{"id": "C37", "title": "Canonical output is sorted and complete", "statement": "With canonical output the same terms are written as without it, in descending lexicographic order, so the output is a function of the set of terms only.", "quantifier": "every finite list of terms", "why_tests_cant": "The input space is infinite (all ideals, all exponents); a test fixes one ideal, and a wrong split, base case or simplification can misbehave only on ideals of a particular shape.", "anchors": ["src/CanonicalTermConsumer.cpp", "src/CanonicalCoefTermConsumer.cpp", "src/Ideal.cpp: sortReverseLex"]}
{"id": "C38", "title": "Polynomial accumulators add up", "statement": "After any sequence of add(coefficient, monomial) calls the accumulated polynomial has at every monomial the sum of the coefficients added there and stores no zero coefficient.", "quantifier": "every history of add / add-signed calls", "why_tests_cant": "All histories.", "anchors": ["src/HashPolynomial.cpp", "src/UniHashPolynomial.cpp"]}
{"id": "C39", "title": "Collecting like terms removes cancelled terms", "statement": "Sorting a polynomial with collection of like terms leaves each monomial at most once, with the summed coefficient, and no term with coefficient zero.", "quantifier": "every list of coefficient-term pairs", "why_tests_cant": "The input space is infinite (all ideals, all exponents); a test fixes one ideal, and a wrong split, base case or simplification can misbehave only on ideals of a particular shape.", "anchors": ["src/Polynomial.cpp: sortTermsReverseLex"]}
{"id": "C40", "title": "Variable names stay a bijection", "statement": "After any sequence of addVar, swapVariables and projectVar calls, names are distinct, getIndex(getName(i)) = i and getIndex returns the invalid index exactly for absent names.", "quantifier": "every history of operations", "why_tests_cant": "All histories.", "anchors": ["src/VarNames.cpp"]}
{"id": "C41", "title": "Unambiguous prefixes are resolved", "statement": "Looking up a name by prefix yields the exact match if there is one, else the unique name having the prefix, else an error that distinguishes unknown from ambiguous.", "quantifier": "every table of distinct names, every prefix", "why_tests_cant": "The input space is infinite (all ideals, all exponents); a test fixes one ideal, and a wrong split, base case or simplification can misbehave only on ideals of a particular shape.", "anchors": ["src/NameFactory.h: getUniqueNameWithPrefix"]}
{"id": "C42", "title": "Arena allocations are disjoint", "statement": "After any history of alloc / freeTop / freeAndAllAfter calls obeying stack order, live allocations are pairwise disjoint, inside live blocks, aligned, at least as large as requested and unchanged by later operations.", "quantifier": "every history of allocation calls and sizes", "why_tests_cant": "All histories.", "anchors": ["src/Arena.h", "src/Arena.cpp"]}
{"id": "C43", "title": "Intersection of ideals", "statement": "IntersectFacade::intersect returns generators of the intersection of the given ideals; of no ideals, the whole ring.", "quantifier": "every list of ideals", "why_tests_cant": "The input space is infinite (all ideals, all exponents); a test fixes one ideal, and a wrong split, base case or simplification can misbehave only on ideals of a particular shape.", "anchors": ["src/IntersectFacade.cpp", "src/intersect.cpp"]}
{"id": "C44", "title": "Ideal transformations", "statement": "Radical, product of generators, adding pure powers, projecting and swapping 0/1 exponents have their textbook meaning on every ideal (e.g. m is in the radical iff some power of m is in the ideal).", "quantifier": "every number of variables, every finite list of generators (any order, duplicates and redundant generators allowed) and every nonnegative exponent of any size", "why_tests_cant": "The input space is infinite (all ideals, all exponents); a test fixes one ideal, and a wrong split, base case or simplification can misbehave only on ideals of a particular shape.", "anchors": ["src/IdealFacade.cpp", "src/BigIdeal.cpp", "src/Ideal.cpp"]}
{"id": "C45", "title": "Frobenius number by dynamic programming", "statement": "dynamicFrobeniusAlgorithm returns the largest integer that is not a nonnegative integer combination of the given positive numbers whenever they have gcd 1.", "quantifier": "every list of at least two positive integers with gcd 1", "why_tests_cant": "The input space is infinite (all ideals, all exponents); a test fixes one ideal, and a wrong split, base case or simplification can misbehave only on ideals of a particular shape.", "anchors": ["src/dynamicFrobeniusAlgorithm.cpp"]}
{"id": "C46", "title": "Dimension by optimization agrees", "statement": "SliceFacade::computeDimension (optimization program on the radical) returns the same number as the maximal independent set algorithm.", "quantifier": "every number of variables, every finite list of generators (any order, duplicates and redundant generators allowed) and every nonnegative exponent of any size", "why_tests_cant": "The input space is infinite (all ideals, all exponents); a test fixes one ideal, and a wrong split, base case or simplification can misbehave only on ideals of a particular shape.", "anchors": ["src/SliceFacade.cpp: computeDimension", "src/IdealFacade.cpp: computeDimension"]}
{"id": "C47", "title": "Deformation recovers the ideal's resolution data", "statement": "Deforming makes the ideal's exponents generic and the recorded table maps every lcm of deformed generators back to the lcm of the original ones.", "quantifier": "every number of variables, every finite list of generators (any order, duplicates and redundant generators allowed) and every nonnegative exponent of any size", "why_tests_cant": "The input space is infinite (all ideals, all exponents); a test fixes one ideal, and a wrong split, base case or simplification can misbehave only on ideals of a particular shape.", "anchors": ["src/Deformer.cpp"]}
{"id": "C48", "title": "Optimization programs report the optimum", "statement": "SliceFacade::solveStandardProgram and solveIrreducibleDecompositionProgram return false iff there is no maximal standard monomial (irreducible component); otherwise the value is the largest inner product, every monomial written attains it, none is written twice, and if all solutions are requested all of them are written.", "quantifier": "every number of variables, every finite list of generators (any order, duplicates and redundant generators allowed) and every nonnegative exponent of any size; every integer vector; every legal split strategy and use of bounds", "why_tests_cant": "Pruning by bounds depends on the order in which slices are processed.", "anchors": ["src/SliceFacade.cpp: solveProgram", "src/OptimizeStrategy.cpp"]}
{"id": "C49", "title": "The optimize action", "statement": "frobby optimize prints the largest (with minValue: smallest) inner product of the given vector with the irreducible components or maximal standard monomials, minus the first entry if the first variable is chopped off, and writes none, one or all of the optimal solutions as asked.", "quantifier": "every number of variables, every finite list of generators (any order, duplicates and redundant generators allowed) and every nonnegative exponent of any size; every integer vector; every combination of options", "why_tests_cant": "The input space is infinite (all ideals, all exponents); a test fixes one ideal, and a wrong split, base case or simplification can misbehave only on ideals of a particular shape.", "anchors": ["src/OptimizeAction.cpp: perform"]}
{"id": "C50", "title": "Sorting variables keeps the ideal", "statement": "When the variables are sorted for canonical output, the names come out ascending, no name is lost or added, every term keeps the exponent of every named variable, and two inputs that differ only in the order of their variables come out equal.", "quantifier": "every list of distinct names, every list of terms, every initial order of the variables", "why_tests_cant": "The input space is infinite (all ideals, all exponents); a test fixes one ideal, and a wrong split, base case or simplification can misbehave only on ideals of a particular shape.", "anchors": ["src/VarSorter.cpp", "src/BigIdeal.cpp: sortVariables", "src/TermTranslator.cpp: swapVariables", "src/CommonParamsHelper.cpp: setIdeal"]}
{"id": "C51", "title": "Printing and parsing are inverse (Singular and CoCoA 4 formats)", "statement": "Writing an ideal in the Singular or CoCoA 4 format and reading the text back yields the same variables and the same generators in the same order.", "quantifier": "every list of distinct legal names and every list of monomials in them (CoCoA 4: a number of variables that fits into a size_t)", "why_tests_cant": "The input space is infinite (all ideals, all exponents); a test fixes one ideal, and a wrong split, base case or simplification can misbehave only on ideals of a particular shape.", "anchors": ["src/SingularIOHandler.cpp", "src/CoCoA4IOHandler.cpp", "src/IOFacade.cpp"]}
{"id": "C52", "title": "Printing and parsing lists of ideals are inverse", "statement": "Writing a list of ideals, each with its own variables, in any of the formats and reading the text back yields the same list; an empty list comes back with the names of its ring.", "quantifier": "every format, every list of well formed ideals, including the empty list", "why_tests_cant": "The input space is infinite (all ideals, all exponents); a test fixes one ideal, and a wrong split, base case or simplification can misbehave only on ideals of a particular shape.", "anchors": ["src/IOFacade.cpp: readIdeals, writeIdeals", "src/IdealWriter.cpp", "src/IOHandlerCommon.cpp"]}
{"id": "C53", "title": "Reading never loops or corrupts", "statement": "Reading an ideal, a square free ideal or a list of ideals from any text in any format ends, with an error or with a well formed result: distinct legal names and one nonnegative exponent per variable in each generator.", "quantifier": "every text, every format", "why_tests_cant": "The input space is infinite (all ideals, all exponents); a test fixes one ideal, and a wrong split, base case or simplification can misbehave only on ideals of a particular shape.", "anchors": ["src/Scanner.cpp", "src/InputConsumer.cpp", "src/IOHandlerCommon.cpp", "src/Fourti2IOHandler.cpp", "src/NewMonosIOHandler.cpp"]}
{"id": "C54", "title": "Reading square free ideals", "statement": "Reading a square free ideal gives the supports of the generators that reading an ideal would give, reports an error if an exponent is above one, and accepts what was written from square free generators.", "quantifier": "every text, every format, every list of sets of variables", "why_tests_cant": "The input space is infinite (all ideals, all exponents); a test fixes one ideal, and a wrong split, base case or simplification can misbehave only on ideals of a particular shape.", "anchors": ["src/InputConsumer.cpp: consumeVarExponent", "src/IOFacade.cpp: readSquareFreeIdeal"]}
{"id": "C55", "title": "Output of the algorithms can be read back", "statement": "An ideal that an algorithm writes generator by generator through a table of exponents is read back as the ideal of the exponents in the table, in every format.", "quantifier": "every format, every table, every list of generators", "why_tests_cant": "The input space is infinite (all ideals, all exponents); a test fixes one ideal, and a wrong split, base case or simplification can misbehave only on ideals of a particular shape.", "anchors": ["src/IdealWriter.cpp", "src/IOHandlerImpl.cpp: writeTermProduct", "src/TermTranslator.cpp: makeStrings", "src/IdealConsolidator.cpp"]}
{"id": "C56", "title": "The format of written text is detected", "statement": "Automatic detection recognises the format of any ideal or list of ideals that was written.", "quantifier": "every format, every ideal and list of ideals", "why_tests_cant": "The input space is infinite (all ideals, all exponents); a test fixes one ideal, and a wrong split, base case or simplification can misbehave only on ideals of a particular shape.", "anchors": ["src/IOHandler.cpp: autoDetectFormat"]}
{"id": "C57", "title": "The scanner's buffer is invisible", "statement": "Whatever the size of the buffer, the scanner sees the characters of the file in order and then, for ever, its end.", "quantifier": "every file, every buffer size, every number of reads", "why_tests_cant": "Bugs show only when a token straddles a buffer boundary.", "anchors": ["src/Scanner.cpp: readBuffer", "src/Scanner.h: getChar"]}
{"id": "C58", "title": "The action frobdyn prints the Frobenius number or rejects the input", "statement": "Given numbers above 1 without common factor, separated by white space, the action frobdyn prints their Frobenius number; numbers with a common factor are rejected; on any text at all it either rejects it or prints the Frobenius number of numbers above 1.", "quantifier": "every list of numbers, every way of separating them with white space, every text", "why_tests_cant": "The input space is infinite (all ideals, all exponents); a test fixes one ideal, and a wrong split, base case or simplification can misbehave only on ideals of a particular shape.", "anchors": ["src/DynamicFrobeniusAction.cpp: perform", "src/IOHandler.cpp: readFrobeniusInstance", "src/dynamicFrobeniusAlgorithm.cpp"]}
{"id": "C59", "title": "An arena knows whether it is empty", "statement": "Arena::isEmpty returns true exactly if there are no live allocations.", "quantifier": "every history of allocation calls and sizes", "why_tests_cant": "All histories.", "anchors": ["src/Arena.h: isEmpty", "src/Arena.cpp: growCapacity, freeTopFromOldBlock"]}
{"id": "C60", "title": "An arena survives running out of memory", "statement": "If Arena::alloc throws bad_alloc the arena is as it was before the call: live allocations stay usable and destroying it releases every block once.", "quantifier": "every history of allocation calls, every point at which operator new fails", "why_tests_cant": "Every crash point.", "anchors": ["src/Arena.cpp: growCapacity, ~Arena"]}
{"id": "C61", "title": "Minimizing, trimming, transposing, deforming and sorting ideals", "statement": "transform -minimize gives the minimal generators, each once; -trimVariables removes exactly the variables that divide no generator and keeps all generators; -transpose transposes the exponent matrix; -deform keeps strict inequalities of exponents and makes positive exponents of a variable distinct; -sort and -unique sort the generators lexicographically, with and without repetitions.", "quantifier": "every number of variables, every finite list of generators (any order, duplicates and redundant generators allowed) and every nonnegative exponent of any size, and every list of such ideals", "why_tests_cant": "The input space is infinite (all ideals, all exponents); a test fixes one ideal, and a wrong split, base case or simplification can misbehave only on ideals of a particular shape.", "anchors": ["src/TransformAction.cpp: perform", "src/IdealFacade.cpp", "src/BigIdeal.cpp"]}
{"id": "C62", "title": "The canonical form is canonical", "statement": "transform -canon gives the same result for lists of ideals that differ by the order of ideals, variables and generators, and the result is itself such a reordering of the input.", "quantifier": "every pair of lists of ideals in rings with any names that are reorderings of each other", "why_tests_cant": "The input space is infinite (all ideals, all exponents); a test fixes one ideal, and a wrong split, base case or simplification can misbehave only on ideals of a particular shape.", "anchors": ["src/TransformAction.cpp: perform, compareIdeals", "src/BigIdeal.cpp: sortVariables, sortGenerators, operator<", "src/VarSorter.cpp"]}
{"id": "C63", "title": "Transform options act one after the other", "statement": "Any combination of options of transform does the same as running transform once per option in the documented order.", "quantifier": "every combination of options, every list of ideals", "why_tests_cant": "The input space is infinite (all ideals, all exponents); a test fixes one ideal, and a wrong split, base case or simplification can misbehave only on ideals of a particular shape.", "anchors": ["src/TransformAction.cpp: perform"]}
{"id": "C64", "title": "transform is defined on every input", "statement": "transform ends with a list of ideals or with an error message, whatever ideals it is given; it never reads or writes outside of a container.", "quantifier": "every list of ideals, in the same or in different rings, and every combination of options", "why_tests_cant": "The input space is infinite (all ideals, all exponents); a test fixes one ideal, and a wrong split, base case or simplification can misbehave only on ideals of a particular shape.", "anchors": ["src/TransformAction.cpp: perform", "src/IdealFacade.cpp: trimVariables, projectVar"]}
{"id": "C65", "title": "The action intersection from input to output", "statement": "On any text the action intersection reports the error of the reader or writes an ideal without redundant generators, in the ring of all variables that occur, that contains a monomial exactly if all ideals of the input do, and which is read back as such.", "quantifier": "every text, every input and output format", "why_tests_cant": "The input space is infinite (all ideals, all exponents); a test fixes one ideal, and a wrong split, base case or simplification can misbehave only on ideals of a particular shape.", "anchors": ["src/IntersectionAction.cpp: perform", "src/IOFacade.cpp", "src/IntersectFacade.cpp"]}
{"id": "C66", "title": "The action transform from input to output", "statement": "If the ideals of the input have the same ring then the action transform writes text that is read back as the transformed ideals.", "quantifier": "every text, every input and output format, every combination of options", "why_tests_cant": "The input space is infinite (all ideals, all exponents); a test fixes one ideal, and a wrong split, base case or simplification can misbehave only on ideals of a particular shape.", "anchors": ["src/TransformAction.cpp: perform", "src/IOFacade.cpp"]}
{"id": "C67", "title": "The genericity tests are right", "statement": "The analysis says yes to strongly generic exactly if no variable has the same positive exponent in two generators, and to weakly generic exactly if for any two generators with a common positive exponent in a variable some generator strictly divides their lcm.", "quantifier": "every list of distinct generators, every number of variables", "why_tests_cant": "The input space is infinite (all ideals, all exponents); a test fixes one ideal, and a wrong split, base case or simplification can misbehave only on ideals of a particular shape.", "anchors": ["src/Ideal.cpp: isStronglyGeneric, isWeaklyGeneric", "src/IdealFacade.cpp: printAnalysis"]}
{"id": "C68", "title": "The deformation algorithm computes the Hilbert-Poincare series", "statement": "Hilbert-Poincare series by deformation: for every enumeration order and deformation order that can be named and for both kinds of deformation, the terms written are the numerator of the multigraded (univariate) series of the ideal read, in canonical order if asked for.", "quantifier": "every list of generators, minimal or not, every number of variables, every pair of names of orders, every outcome of shuffling", "why_tests_cant": "The input space is infinite (all ideals, all exponents); a test fixes one ideal, and a wrong split, base case or simplification can misbehave only on ideals of a particular shape.", "anchors": ["src/ScarfFacade.cpp: computeMultigradedHilbertSeries, computeUnivariateHilbertSeries", "src/ScarfHilbertAlgorithm.cpp: runGeneric, enumerateScarfComplex, doEnumerationStep", "src/Deformer.cpp: Deformer, undeform"]}
{"id": "C69", "title": "The tree of generators answers like the list", "statement": "Building the tree terminates, keeps every generator exactly once, and a query says yes exactly if some generator strictly divides the given monomial.", "quantifier": "every list of distinct generators, every number of variables, every monomial", "why_tests_cant": "The input space is infinite (all ideals, all exponents); a test fixes one ideal, and a wrong split, base case or simplification can misbehave only on ideals of a particular shape.", "anchors": ["src/IdealTree.cpp: IdealTree, makeTree, strictlyContains"]}
{"id": "C70", "title": "Named orders of generators", "statement": "A name made of order names joined by underscores sorts the generators stably, the first order that tells two generators apart deciding, each order meaning what its name says and rev reversing it; no generator is lost or added; a part that is ambiguous or unknown is reported.", "quantifier": "every name, every list of distinct generators, every outcome of shuffling", "why_tests_cant": "The input space is infinite (all ideals, all exponents); a test fixes one ideal, and a wrong split, base case or simplification can misbehave only on ideals of a particular shape.", "anchors": ["src/IdealOrderer.cpp: createIdealOrderer, getOrdererFactory, IdealOrderer::order", "src/TermExtra.cpp"]}
{"id": "C71", "title": "Polynomials in files", "statement": "A polynomial written in any format that has polynomials is read back with the same names, coefficients and terms in the same order, and the format of the file is recognised. The polynomial without terms is read back as the term 0 in all formats but 4ti2.", "quantifier": "every list of terms with any integer coefficients and any nonnegative exponents, zero coefficients and repeated terms included, every number of variables, every list of legal names, every format with polynomials", "why_tests_cant": "The input space is infinite (all ideals, all exponents); a test fixes one ideal, and a wrong split, base case or simplification can misbehave only on ideals of a particular shape.", "anchors": ["src/IOHandlerImpl.cpp: readCoefTerm, readVarPower, writeCoefTermProduct", "src/CoCoA4IOHandler.cpp", "src/Macaulay2IOHandler.cpp", "src/SingularIOHandler.cpp", "src/Fourti2IOHandler.cpp", "src/PolyWriter.cpp", "src/IOFacade.cpp: readPolynomial, writePolynomial"]}
{"id": "C72", "title": "Polynomials written term by term", "statement": "A polynomial that an algorithm writes term by term, with exponents looked up in tables, is read back as the polynomial with these exponents.", "quantifier": "every sequence of terms, every table of exponents, every list of legal names, every format with polynomials", "why_tests_cant": "The input space is infinite (all ideals, all exponents); a test fixes one ideal, and a wrong split, base case or simplification can misbehave only on ideals of a particular shape.", "anchors": ["src/PolyWriter.cpp: consume", "src/PolynomialConsolidator.cpp", "src/IOHandlerImpl.cpp: writeCoefTermProduct"]}
{"id": "C73", "title": "Reading polynomials", "statement": "Whatever the text, reading it as a polynomial ends, with an error message or with a polynomial that has distinct legal names and one nonnegative exponent per variable in each term.", "quantifier": "every text, every format", "why_tests_cant": "The input space is infinite (all ideals, all exponents); a test fixes one ideal, and a wrong split, base case or simplification can misbehave only on ideals of a particular shape.", "anchors": ["src/IOFacade.cpp: readPolynomial", "src/IOHandlerImpl.cpp: readCoefTerm", "src/CoCoA4IOHandler.cpp: readCoefTerm", "src/Fourti2IOHandler.cpp: doReadPolynomial"]}
{"id": "C74", "title": "The action ptransform from input to output", "statement": "ptransform writes the polynomial it read, with the variables sorted by name if -canon is given and the terms in descending order if -canon or -sort is given, in a form that is read back as that. With -canon, inputs that differ in the order of variables and terms give the same output, and the output is transformed to itself. There is no output exactly if the input cannot be read or the output format has no polynomials.", "quantifier": "every text, every input and output format, every combination of options", "why_tests_cant": "The input space is infinite (all ideals, all exponents); a test fixes one ideal, and a wrong split, base case or simplification can misbehave only on ideals of a particular shape.", "anchors": ["src/PolyTransformAction.cpp: perform", "src/PolynomialFacade.cpp", "src/BigPolynomial.cpp: sortVariables, sortTermsReverseLex"]}
{"id": "C75", "title": "The action irrdecom from input to output", "statement": "irrdecom writes text that is read back as the irreducible decomposition of the ideal in the input: a list of ideals generated by powers of variables, or with -encode one ideal whose generators encode them. Without -encode the output format has to support lists of ideals (Macaulay 2, Monos, 4ti2), and otherwise it reports an error. With -canon the variables are sorted by name and the components are in descending order.", "quantifier": "every text that is read as an ideal, every input and output format, every option of the algorithm, with and without -canon, -minimal and -encode", "why_tests_cant": "The input space is infinite (all ideals, all exponents); a test fixes one ideal, and a wrong split, base case or simplification can misbehave only on ideals of a particular shape.", "anchors": ["src/IrreducibleDecomAction.cpp: perform", "src/CommonParamsHelper.cpp: readIdealAndSetOutput", "src/SliceFacade.cpp: computeIrreducibleDecomposition", "src/CanonicalTermConsumer.cpp", "src/DecomRecorder.h", "src/IrreducibleIdealSplitter.cpp", "src/TranslatingTermConsumer.cpp", "src/IdealWriter.cpp"]}
{"id": "C76", "title": "The actions maxstandard and assoprimes from input to output", "statement": "maxstandard writes text that is read back as the list of the maximal standard monomials, each once, with -increment each times all variables; assoprimes writes text that is read back as the list of the products of the variables of the associated primes, each once; they report an error if the output format does not support lists of ideals. With -canon the variables are sorted by name and the list is in descending order.", "quantifier": "every text that is read as an ideal, every input and output format, every option of the algorithm, with and without -canon, -minimal and -increment", "why_tests_cant": "The input space is infinite (all ideals, all exponents); a test fixes one ideal, and a wrong split, base case or simplification can misbehave only on ideals of a particular shape.", "anchors": ["src/MaximalStandardAction.cpp: perform", "src/AssociatedPrimesAction.cpp: perform", "src/SliceFacade.cpp: computeMaximalStandardMonomials, computeAssociatedPrimes"]}
{"id": "C77", "title": "The action primdecom from input to output", "statement": "primdecom writes text that is read back as a list of ideals whose intersection is the ideal in the input, each listing the minimal generators of the intersection of the components with one support, and whose radicals are the associated primes, or reports an error if the output format does not support lists of ideals. With -canon the variables are sorted by name, the generators of each ideal are in descending order and so are the ideals.", "quantifier": "every text that is read as an ideal, every input and output format, every option of the algorithm, with and without -canon and -minimal", "why_tests_cant": "The input space is infinite (all ideals, all exponents); a test fixes one ideal, and a wrong split, base case or simplification can misbehave only on ideals of a particular shape.", "anchors": ["src/PrimaryDecomAction.cpp: perform", "src/SliceFacade.cpp: computePrimaryDecomposition", "src/CanonicalTermConsumer.cpp"]}
{"id": "C78", "title": "The action alexdual from input to output", "statement": "alexdual writes text that is read back as the minimal generators of the Alexander dual of the ideal in the input, with respect to the point that follows the ideal or, if none does, the lcm of the minimal generators. If a minimal generator does not divide the point then there is an error and no output. A point written as frobby writes a monomial is read as that monomial.", "quantifier": "every text that is read as an ideal or an ideal and a point, every input and output format, every option of the algorithm, with and without -canon and -minimal", "why_tests_cant": "The input space is infinite (all ideals, all exponents); a test fixes one ideal, and a wrong split, base case or simplification can misbehave only on ideals of a particular shape.", "anchors": ["src/AlexanderDualAction.cpp: perform", "src/IOFacade.cpp: readAlexanderDualInstance", "src/IOHandler.cpp: readTerm", "src/SliceFacade.cpp: computeAlexanderDual"]}
{"id": "C79", "title": "Canonical output depends only on the ideal", "statement": "With -canon, two inputs with the same variables in any order and the same ideal give the same bytes of output in the actions irrdecom, maxstandard, assoprimes, primdecom and alexdual, whatever the generators, the input formats, the options of the algorithm and the random choices.", "quantifier": "every two texts that are read as the same ideal, every two choices of options with the same output format", "why_tests_cant": "The input space is infinite (all ideals, all exponents); a test fixes one ideal, and a wrong split, base case or simplification can misbehave only on ideals of a particular shape.", "anchors": ["src/CommonParamsHelper.cpp", "src/VarSorter.cpp", "src/CanonicalTermConsumer.cpp", "src/CommonParams.cpp"]}
{"id": "C80", "title": "These actions always end with output or an error", "statement": "Whatever the bytes of the input, each of the actions irrdecom, maxstandard, assoprimes, primdecom and alexdual ends; it reports the error that reading the input reports, if any, and else writes output, except that alexdual can report an error for a point, and that the others, unless irrdecom is given -encode, report an error first if the output format does not support lists of ideals.", "quantifier": "every text, every input and output format, every option of the algorithm but -minimal", "why_tests_cant": "The input space is infinite (all ideals, all exponents); a test fixes one ideal, and a wrong split, base case or simplification can misbehave only on ideals of a particular shape.", "anchors": ["src/IrreducibleDecomAction.cpp", "src/MaximalStandardAction.cpp", "src/AssociatedPrimesAction.cpp", "src/PrimaryDecomAction.cpp", "src/AlexanderDualAction.cpp"]}
{"id": "C81", "title": "What analyze prints", "statement": "The action analyze prints exactly the lines asked for, in the documented order: the least common multiple of the generators in the input, in a form that can be read back, the number of variables, the number of generators, the largest exponent (0 if there is none), the counts of the short summary and 1 or 0 for whether the generators are the minimal ones. Any input that cannot be read gives the reader's error and no output.", "quantifier": "every text, every input and output format, every combination of options with summary level 0 or 1", "why_tests_cant": "The input space is infinite (all ideals, all exponents); a test fixes one ideal, and a wrong split, base case or simplification can misbehave only on ideals of a particular shape.", "anchors": ["src/AnalyzeAction.cpp", "src/IOFacade.cpp", "src/IdealFacade.cpp"]}
{"id": "C82", "title": "The long summary of analyze", "statement": "With a summary level of 2 or more the action analyze also prints the number of generators in the input, the number of variables, whether the generators are the minimal ones, and whether the ideal is strongly generic and weakly generic.", "quantifier": "every text that is read as an ideal, every combination of options", "why_tests_cant": "The input space is infinite (all ideals, all exponents); a test fixes one ideal, and a wrong split, base case or simplification can misbehave only on ideals of a particular shape.", "anchors": ["src/AnalyzeAction.cpp", "src/IdealFacade.cpp", "src/Ideal.cpp"]}
{"id": "C83", "title": "The action optimize from input to output", "statement": "optimize writes what it is asked for about the ideal and the vector in the input: with a display level of 1 one optimal solution, with a higher level all of them, in a form that is read back as them, and with -displayValue the optimal value or that there is no solution. The options -minValue, -maxStandard and -chopFirstAndSubtract have their documented meaning, and -canon and -minimal only affect the order of the output and the time. Without a vector all its entries are 1. The value does not depend on the options of the algorithm.", "quantifier": "every text that is read as an ideal or an ideal and a vector, every input and output format, every option of the action and of the algorithm", "why_tests_cant": "The input space is infinite (all ideals, all exponents); a test fixes one ideal, and a wrong split, base case or simplification can misbehave only on ideals of a particular shape.", "anchors": ["src/OptimizeAction.cpp: perform", "src/IOFacade.cpp: readVector", "src/SliceFacade.cpp: solveStandardProgram, solveIrreducibleDecompositionProgram, solveProgram"]}
{"id": "C84", "title": "The action dimension from input to output", "statement": "dimension prints the dimension of the ideal in the input, or with -codim the codimension, with both algorithms, and reports the error of reading if the input cannot be read. With -squareFreeAndMinimal this is so for square free ideals with minimal generators.", "quantifier": "every text, every input format, every combination of options", "why_tests_cant": "The input space is infinite (all ideals, all exponents); a test fixes one ideal, and a wrong split, base case or simplification can misbehave only on ideals of a particular shape.", "anchors": ["src/DimensionAction.cpp: perform", "src/IdealFacade.cpp: computeDimension", "src/SliceFacade.cpp: computeDimension"]}
{"id": "C85", "title": "The action euler from input to output", "statement": "What euler prints is the reduced Euler characteristic of the complex in the input. The names of strategies that it accepts are exactly the documented ones, with the prefix widen_ or joined by underscores; for every other name there is an error and no output.", "quantifier": "every text, every value of the options -pivot, -stdPivot, -genPivot and -autotranspose, every combination of the other options, all values of rand()", "why_tests_cant": "The input space is infinite (all ideals, all exponents); a test fixes one ideal, and a wrong split, base case or simplification can misbehave only on ideals of a particular shape.", "anchors": ["src/EulerAction.cpp: perform", "src/PivotStrategy.cpp: newStdPivotStrategy, newGenPivotStrategy", "src/NameFactory.h: createNoThrow"]}
{"id": "C86", "title": "Every readable text is detected", "statement": "A text that can be read in a format, as an ideal, a square free ideal, a list of ideals or a polynomial, is detected as that format. So no text can be read in two formats, and the output is by default in the format of the input.", "quantifier": "every text, every format", "why_tests_cant": "The input space is infinite (all ideals, all exponents); a test fixes one ideal, and a wrong split, base case or simplification can misbehave only on ideals of a particular shape.", "anchors": ["src/IOHandler.cpp: autoDetectFormat", "src/IOParameters.cpp: autoDetectInputFormat", "src/Scanner.cpp"]}
{"id": "C87", "title": "The action hilbert from input to output", "statement": "hilbert prints a polynomial that reads back as the numerator of the multigraded Hilbert-Poincare series of the ideal in the input, or with -univariate of the univariate one in the variable t, with like terms collected and no zero coefficients, and with -canon with the terms in descending order. This is so for each of the three algorithms, every accepted strategy and order, and all random choices.", "quantifier": "every text that is read as an ideal, every input format, every output format for polynomials, every combination of options, all values of rand(), all iteration orders of hash tables", "why_tests_cant": "The input space is infinite (all ideals, all exponents); a test fixes one ideal, and a wrong split, base case or simplification can misbehave only on ideals of a particular shape.", "anchors": ["src/HilbertAction.cpp: perform", "src/SliceFacade.cpp: computeMultigradedHilbertSeries, computeUnivariateHilbertSeries", "src/BigattiFacade.cpp", "src/ScarfFacade.cpp"]}
{"id": "C88", "title": "The output of hilbert -canon depends only on the ideal", "statement": "With -canon the text printed by hilbert depends only on the ideal, the output format and whether -univariate is given: two inputs that present the same ideal, possibly in different formats and with the variables and generators in different orders, give the same bytes with any two algorithms and strategies.", "quantifier": "every pair of texts that present the same ideal, every two choices of algorithm, strategies and random values", "why_tests_cant": "The input space is infinite (all ideals, all exponents); a test fixes one ideal, and a wrong split, base case or simplification can misbehave only on ideals of a particular shape.", "anchors": ["src/HilbertAction.cpp: perform", "src/CanonicalCoefTermConsumer.cpp", "src/CommonParamsHelper.cpp"]}
{"id": "C89", "title": "Wrong options of hilbert are reported and right ones always give an answer", "statement": "hilbert reports an error and prints nothing if the algorithm is not one of the three or a strategy or order it uses is not accepted, or if the output format has no polynomials. With accepted options it prints a series for every text that can be read as an ideal, and otherwise reports the error of reading.", "quantifier": "every text, every value of every option", "why_tests_cant": "The input space is infinite (all ideals, all exponents); a test fixes one ideal, and a wrong split, base case or simplification can misbehave only on ideals of a particular shape.", "anchors": ["src/HilbertAction.cpp: perform", "src/SliceParams.cpp: validateSplit", "src/IdealOrderer.cpp: createIdealOrderer"]}
{"id": "C90", "title": "Names of split, pivot and order strategies", "statement": "A split strategy of the slice algorithm, a pivot strategy of the Bigatti algorithm and each part of an order can be given by name or by a prefix of no other name; anything else is an error. Each accepted name gives a strategy for which the algorithms are correct and terminate. Strategies that need a grading are refused in actions without one, and label strategies where they are not allowed.", "quantifier": "every string given to -split, -enumOrder and -deformOrder", "why_tests_cant": "The input space is infinite (all ideals, all exponents); a test fixes one ideal, and a wrong split, base case or simplification can misbehave only on ideals of a particular shape.", "anchors": ["src/NameFactory.h", "src/SplitStrategy.cpp: SplitStrategy::createStrategy", "src/SliceParams.cpp: validateSplit", "src/BigattiPivotStrategy.cpp: createStrategy", "src/IdealOrderer.cpp: createIdealOrderer"]}
{"id": "C91", "title": "The command line means what it says", "statement": "The arguments after the action are read as options, each a minus sign followed by the name of an option of the action or by a prefix of exactly one, together with their arguments. An option that takes a truth value may have the argument on or off or none, one that takes a number has one argument that is a decimal number from 0 to 2^32-1, one that takes a word has any one argument. An option has the value of its last setting, or else its documented default. Every other command line is reported as an error, and no command line can be read in two ways.", "quantifier": "every list of arguments, every set of options with different names", "why_tests_cant": "The input space is infinite (all ideals, all exponents); a test fixes one ideal, and a wrong split, base case or simplification can misbehave only on ideals of a particular shape.", "anchors": ["src/CliParams.cpp: parseCommandLine, processOption", "src/Parameter.cpp", "src/BoolParameter.cpp", "src/IntegerParameter.cpp", "src/StringParameter.cpp"]}
{"id": "C92", "title": "Only the action and the values of the options matter", "statement": "What the program prints depends on the action and on the values of its options only, not on the order in which options are given, on whether names are abbreviated or on settings that are overridden. Unknown or ambiguous actions, options, formats and splits are reported as errors, whatever the input.", "quantifier": "every two command lines, every text", "why_tests_cant": "The input space is infinite (all ideals, all exponents); a test fixes one ideal, and a wrong split, base case or simplification can misbehave only on ideals of a particular shape.", "anchors": ["src/main.cpp: frobbyMain", "src/Action.cpp: createActionWithPrefix, parseCommandLine", "src/NameFactory.h", "src/IOParameters.cpp"]}
{"id": "C93", "title": "Each option reaches the computation it is documented for", "statement": "Each of the fourteen actions on ideals, polynomials and Frobenius numbers has exactly its documented options with their documented defaults, and performs its computation with the values given to them on the command line and on no others.", "quantifier": "every action but the generators of random data, the lattice actions, frobgrob, help and test; every command line, every text", "why_tests_cant": "The input space is infinite (all ideals, all exponents); a test fixes one ideal, and a wrong split, base case or simplification can misbehave only on ideals of a particular shape.", "anchors": ["src/*Action.cpp: perform, obtainParameters", "src/SliceParameters.cpp", "src/SliceParams.cpp", "src/ScarfParams.cpp", "src/IOParameters.cpp"]}
{"id": "C94", "title": "The program computes decompositions", "statement": "Run with the action irrdecom, maxstandard, assoprimes or primdecom, the program prints the irreducible decomposition, the maximal standard monomials, the associated primes or a primary decomposition of the ideal in its input, in the format asked for or else that of the input, in a form that is read back as that, or reports an error if that format does not support lists of ideals.", "quantifier": "every command line with accepted names, every text that is read as an ideal, all values of rand()", "why_tests_cant": "The input space is infinite (all ideals, all exponents); a test fixes one ideal, and a wrong split, base case or simplification can misbehave only on ideals of a particular shape.", "anchors": ["src/main.cpp", "src/IrreducibleDecomAction.cpp", "src/MaximalStandardAction.cpp", "src/AssociatedPrimesAction.cpp", "src/PrimaryDecomAction.cpp"]}
{"id": "C95", "title": "The program computes dimensions, series and Euler characteristics", "statement": "Run with the action dimension, hilbert or euler, the program prints the dimension or codimension, the numerator of the multigraded or univariate Hilbert-Poincare series, or the reduced Euler characteristic of what is in its input.", "quantifier": "every command line with accepted names, every text that is read as an ideal, all values of rand(), all iteration orders of hash tables", "why_tests_cant": "The input space is infinite (all ideals, all exponents); a test fixes one ideal, and a wrong split, base case or simplification can misbehave only on ideals of a particular shape.", "anchors": ["src/main.cpp", "src/DimensionAction.cpp", "src/HilbertAction.cpp", "src/EulerAction.cpp"]}
{"id": "C96", "title": "The program is canonical and never gets stuck", "statement": "With -canon the decomposition and dual actions print the same bytes for the same ideal, whatever the command lines, the input formats, the generators, the order of the variables and the random values. Without -minimal these actions, dimension, optimize and analyze print something or report an error for every command line and every input.", "quantifier": "every two command lines with the same action and -canon, every two texts that present the same ideal; every command line and every sequence of bytes", "why_tests_cant": "The input space is infinite (all ideals, all exponents); a test fixes one ideal, and a wrong split, base case or simplification can misbehave only on ideals of a particular shape.", "anchors": ["src/main.cpp", "src/Action.cpp", "src/CommonParamsHelper.cpp"]}
{"id": "C97", "title": "List and tree ideals are generated", "statement": "Generating a list ideal in n variables gives the generators x1*x2, x2*x3, ..., in that order. Generating a tree ideal in n variables gives, for each of the 2^n - 1 nonempty sets of k variables, the product of x^(n-k+1) over the set, once. The generators are minimal.", "quantifier": "every number of variables", "why_tests_cant": "The input space is infinite (all ideals, all exponents); a test fixes one ideal, and a wrong split, base case or simplification can misbehave only on ideals of a particular shape.", "anchors": ["src/randomDataGenerators.cpp: generateLinkedListIdeal, generateTreeIdeal, nextBitPattern"]}
{"id": "C98", "title": "King and knight ideals are generated", "statement": "On an n by n board with a variable rIcJ for each square, the ideal generated has a product of two squares as a generator exactly if a king, or a knight, can move from one to the other. Each is given once, the generators are minimal and sorted, and an error is reported exactly if there are more squares than can be counted.", "quantifier": "every board size, every largest number of the machine", "why_tests_cant": "The input space is infinite (all ideals, all exponents); a test fixes one ideal, and a wrong split, base case or simplification can misbehave only on ideals of a particular shape.", "anchors": ["src/randomDataGenerators.cpp: generateChessIdeal, generateKingChessIdeal, generateKnightChessIdeal"]}
{"id": "C99", "title": "Rook ideals are generated", "statement": "For a board with n rows and k columns, each from 1 to 1000, the generation ends and gives one generator for each way of placing as many rooks as possible of which none attacks another, and no other generator. Other sizes are reported.", "quantifier": "every number of rows and columns", "why_tests_cant": "The input space is infinite (all ideals, all exponents); a test fixes one ideal, and a wrong split, base case or simplification can misbehave only on ideals of a particular shape.", "anchors": ["src/randomDataGenerators.cpp: generateRookChessIdeal"]}
{"id": "C100", "title": "Matching ideals are generated", "statement": "For the complete graph on n nodes, n from 1 to 1000, the generation ends and gives one generator for each matching that leaves at most one node out, and no other generator. Other sizes are reported.", "quantifier": "every number of nodes", "why_tests_cant": "The input space is infinite (all ideals, all exponents); a test fixes one ideal, and a wrong split, base case or simplification can misbehave only on ideals of a particular shape.", "anchors": ["src/randomDataGenerators.cpp: generateMatchingIdeal"]}
{"id": "C101", "title": "Random ideals have the size asked for", "statement": "A random ideal has at most the number of generators asked for, with exponents in the range asked for, and the generators are minimal. If fewer are returned this is said, and then each of the four million monomials that were drawn is comparable to a generator.", "quantifier": "every number of variables and generators, every exponent range below the largest size_t, all values of rand()", "why_tests_cant": "The input space is infinite (all ideals, all exponents); a test fixes one ideal, and a wrong split, base case or simplification can misbehave only on ideals of a particular shape.", "anchors": ["src/randomDataGenerators.cpp: generateRandomIdeal"]}
{"id": "C102", "title": "Random edge ideals have the size asked for", "statement": "A random edge ideal is generated in the end, has at most the number of generators asked for, each of them a product of two different variables, and it is said if there are fewer.", "quantifier": "every number of variables and generators, all values of rand()", "why_tests_cant": "The input space is infinite (all ideals, all exponents); a test fixes one ideal, and a wrong split, base case or simplification can misbehave only on ideals of a particular shape.", "anchors": ["src/randomDataGenerators.cpp: generateRandomEdgeIdeal"]}
{"id": "C103", "title": "Random Frobenius instances can be solved", "statement": "The action genfrob prints as many numbers as asked for, in increasing order, with at most the number of digits asked for and no common divisor, so that the action frobdyn computes their Frobenius number.", "quantifier": "every command line, all random numbers", "why_tests_cant": "The input space is infinite (all ideals, all exponents); a test fixes one ideal, and a wrong split, base case or simplification can misbehave only on ideals of a particular shape.", "anchors": ["src/GenerateFrobeniusAction.cpp", "src/randomDataGenerators.cpp: generateRandomFrobeniusInstance", "src/IOFacade.cpp: writeFrobeniusInstance"]}
{"id": "C104", "title": "The program generates the ideals asked for", "statement": "Run with the action genideal, the program prints an ideal of the type and size asked for, by its minimal generators, in the format asked for, which is read back as that ideal. It ends for all types but edge if the size is allowed, and reports unknown types, unknown formats and sizes that are not allowed.", "quantifier": "every command line, all values of rand()", "why_tests_cant": "The input space is infinite (all ideals, all exponents); a test fixes one ideal, and a wrong split, base case or simplification can misbehave only on ideals of a particular shape.", "anchors": ["src/GenerateIdealAction.cpp", "src/GenerateDataFacade.cpp", "src/main.cpp"]}
{"id": "C105", "title": "Row reduction brings a matrix to its unique reduced form", "statement": "Row reduction gives a matrix of the same size with the same row space in echelon form. Full row reduction always ends and gives the reduced echelon form: each pivot is 1 and the only entry that is not 0 in its column. Two matrices of the same size with the same row space give the same result.", "quantifier": "every matrix of rational numbers", "why_tests_cant": "The input space is infinite (all ideals, all exponents); a test fixes one ideal, and a wrong split, base case or simplification can misbehave only on ideals of a particular shape.", "anchors": ["src/Matrix.cpp", "src/Matrix.h:rowReduce, rowReduceFully"]}
{"id": "C106", "title": "Solving linear equations", "statement": "solve answers whether the equations lhs * sol = rhs have a solution, and if so it gives one.", "quantifier": "all matrices of rational numbers with the same number of rows", "why_tests_cant": "The input space is infinite (all ideals, all exponents); a test fixes one ideal, and a wrong split, base case or simplification can misbehave only on ideals of a particular shape.", "anchors": ["src/Matrix.cpp:solve"]}
{"id": "C107", "title": "Inverse matrices", "statement": "inverse answers whether a square matrix has an inverse, and if so it gives a matrix that is an inverse from both sides.", "quantifier": "all square matrices of rational numbers", "why_tests_cant": "The input space is infinite (all ideals, all exponents); a test fixes one ideal, and a wrong split, base case or simplification can misbehave only on ideals of a particular shape.", "anchors": ["src/Matrix.cpp:inverse"]}
{"id": "C108", "title": "Rank and null space", "statement": "matrixRank is the dimension of the row space. The columns of the matrix that nullSpace gives are a basis of the null space, and each of them is a vector of integers without a common divisor.", "quantifier": "every matrix of rational numbers", "why_tests_cant": "The input space is infinite (all ideals, all exponents); a test fixes one ideal, and a wrong split, base case or simplification can misbehave only on ideals of a particular shape.", "anchors": ["src/Matrix.cpp:matrixRank, nullSpace, makeColumnIntegralPrimitive"]}
{"id": "C109", "title": "Comparing row and column spaces", "statement": "hasSameRowSpace and hasSameColSpace answer whether two matrices have the same row space or column space.", "quantifier": "all pairs of matrices of rational numbers", "why_tests_cant": "The input space is infinite (all ideals, all exponents); a test fixes one ideal, and a wrong split, base case or simplification can misbehave only on ideals of a particular shape.", "anchors": ["src/Matrix.cpp:hasSameRowSpace, hasSameColSpace"]}
{"id": "C110", "title": "Determinants", "statement": "determinant gives the determinant as defined by expansion along a column, and it is not 0 exactly if inverse finds an inverse.", "quantifier": "all square matrices of rational numbers", "why_tests_cant": "The input space is infinite (all ideals, all exponents); a test fixes one ideal, and a wrong split, base case or simplification can misbehave only on ideals of a particular shape.", "anchors": ["src/Matrix.cpp:determinant"]}
{"id": "C111", "title": "Parallelograms", "statement": "isParallelogram answers whether the rows of a matrix are the four corners of a parallelogram in some order, and getParallelogramAreaSq gives the square of its area.", "quantifier": "every matrix of rational numbers", "why_tests_cant": "The input space is infinite (all ideals, all exponents); a test fixes one ideal, and a wrong split, base case or simplification can misbehave only on ideals of a particular shape.", "anchors": ["src/Matrix.cpp:isParallelogram, getParallelogramAreaSq"]}
{"id": "C112", "title": "Products, transposes and parts of matrices", "statement": "product, transpose, subMatrix, copyRow, resize and the comparison of matrices do what their names say, entry by entry.", "quantifier": "all matrices of rational numbers of suitable sizes", "why_tests_cant": "The input space is infinite (all ideals, all exponents); a test fixes one ideal, and a wrong split, base case or simplification can misbehave only on ideals of a particular shape.", "anchors": ["src/Matrix.cpp"]}
{"id": "C113", "title": "Lattice bases are translated between formats", "statement": "latformat reads a matrix in the format of 4ti2 or fplll and writes the same matrix in the format asked for. For every input it writes a matrix or reports a syntax error, and unknown formats are reported.", "quantifier": "every matrix of integers, every layout of white space, every sequence of bytes", "why_tests_cant": "The input space is infinite (all ideals, all exponents); a test fixes one ideal, and a wrong split, base case or simplification can misbehave only on ideals of a particular shape.", "anchors": ["src/LatticeFormatAction.cpp", "src/fourti2.cpp:readLatticeBasis, writeLatticeBasis", "src/fplllIO.cpp"]}
{"id": "C114", "title": "Simplifying a lattice basis keeps the lattice", "statement": "latformat -zero writes a matrix of the same size whose rows generate the same lattice, and are independent if they were before. In the second column, if there is an entry 1 or -1, the others are 0.", "quantifier": "every matrix of integers", "why_tests_cant": "The input space is infinite (all ideals, all exponents); a test fixes one ideal, and a wrong split, base case or simplification can misbehave only on ideals of a particular shape.", "anchors": ["src/lattice.cpp:makeZeroesInLatticeBasis, addMultiple", "src/LatticeFormatAction.cpp"]}
{"id": "C115", "title": "Frobenius numbers by Grobner bases", "statement": "frobgrob prints the Frobenius number of coprime numbers greater than 1 if its input has these and a Grobner basis of the lattice of their relations for a reverse order; with -vector also a vector that shows it. Otherwise it reports an error or solves the program that the input describes.", "quantifier": "all sequences of coprime numbers, all Grobner bases, every sequence of bytes, all values of rand()", "why_tests_cant": "The input space is infinite (all ideals, all exponents); a test fixes one ideal, and a wrong split, base case or simplification can misbehave only on ideals of a particular shape.", "anchors": ["src/FrobeniusAction.cpp", "src/IOFacade.cpp:readFrobeniusInstanceWithGrobnerBasis", "src/fourti2.cpp:readGrobnerBasis"]}
{"id": "C116", "title": "The replacement of frobgrob computes Frobenius numbers", "statement": "optimize -chopFirstAndSubtract -maxStandard, which frobgrob tells the user to use instead, prints the Frobenius number when given the leading terms of the Grobner basis and the numbers.", "quantifier": "all sequences of coprime numbers, all Grobner bases, all values of rand()", "why_tests_cant": "The input space is infinite (all ideals, all exponents); a test fixes one ideal, and a wrong split, base case or simplification can misbehave only on ideals of a particular shape.", "anchors": ["src/OptimizeAction.cpp", "src/FrobeniusAction.cpp"]}
{"id": "C117", "title": "The lattice actions of the program", "statement": "frobby frobgrob and frobby latformat, with any options in any order and abbreviated or not, print the Frobenius number of the numbers in the input and the matrix in the input in the format asked for, as C113 to C115 say. Unknown formats and split strategies are reported.", "quantifier": "all command lines, all inputs, all values of rand()", "why_tests_cant": "The input space is infinite (all ideals, all exponents); a test fixes one ideal, and a wrong split, base case or simplification can misbehave only on ideals of a particular shape.", "anchors": ["src/main.cpp", "src/FrobeniusAction.cpp", "src/LatticeFormatAction.cpp"]}
{"id": "C118", "title": "Messages are broken into lines", "statement": "display shows every message: all its words in order and unchanged, a line is broken only where the next word does not fit in 79 characters, white space at the start of a line is repeated on the lines it is broken into, and lines that fit are shown unchanged. Notes and errors are marked as such.", "quantifier": "every message and every prefix", "why_tests_cant": "The input space is infinite (all ideals, all exponents); a test fixes one ideal, and a wrong split, base case or simplification can misbehave only on ideals of a particular shape.", "anchors": ["src/display.cpp"]}
{"id": "C119", "title": "Tables are aligned", "statement": "ColumnPrinter prints row i of every column in line i, filled up with spaces to the width of the column on the right or left, so that all rows have the same width; it prints as many rows as the longest column has.", "quantifier": "all sequences of columns with any texts", "why_tests_cant": "The input space is infinite (all ideals, all exponents); a test fixes one ideal, and a wrong split, base case or simplification can misbehave only on ideals of a particular shape.", "anchors": ["src/ColumnPrinter.cpp"]}
{"id": "C120", "title": "Help on actions", "statement": "frobby help ACTION displays the description of that action, then all its options in alphabetical order with the kind of argument, the default that the action really uses, and the description of the option. The name of the action may be abbreviated as for running it, and other topics are reported. frobby help and frobby without arguments list the actions with their short descriptions.", "quantifier": "all topics, all texts of descriptions", "why_tests_cant": "The input space is infinite (all ideals, all exponents); a test fixes one ideal, and a wrong split, base case or simplification can misbehave only on ideals of a particular shape.", "anchors": ["src/HelpAction.cpp", "src/Action.cpp", "src/main.cpp"]}
{"id": "C121", "title": "Help on formats", "statement": "frobby help io lists every format with exactly the types of data that it can read and write, and frobby help ACTION lists exactly the formats that the action can read and write.", "quantifier": "all actions and formats, all texts of descriptions", "why_tests_cant": "The input space is infinite (all ideals, all exponents); a test fixes one ideal, and a wrong split, base case or simplification can misbehave only on ideals of a particular shape.", "anchors": ["src/HelpAction.cpp:displayIOHelp", "src/IOParameters.cpp", "src/IOHandler.cpp", "src/DataType.cpp"]}
{"id": "C122", "title": "The formats count and null", "statement": "With -oformat count, irrdecom -encode, maxstandard, assoprimes and alexdual print the number of irreducible components, maximal standard monomials, associated primes and minimal generators of the Alexander dual; irrdecom, primdecom, transform and intersection print one line with the number of generators for each ideal; hilbert and ptransform print the number of terms of the numerator of the Hilbert series and of the polynomial. With -oformat null they print nothing, but report the same errors.", "quantifier": "all command lines and inputs, all values of rand()", "why_tests_cant": "The input space is infinite (all ideals, all exponents); a test fixes one ideal, and a wrong split, base case or simplification can misbehave only on ideals of a particular shape.", "anchors": ["src/CountingIOHandler.cpp", "src/NullIOHandler.cpp", "src/CommonParamsHelper.cpp"]}
{"id": "C123", "title": "Point-free bodies, edges and double triangles of saturated binomial ideals", "statement": "For generators given as integer vectors, the tests of a saturated binomial ideal say whether a generator is in the interior of the smallest body containing zero and two or three given vectors, whether two generators have an interior edge or a terminating one, and how many pairs of generators make double triangles.", "quantifier": "all generating sets, vectors and pairs of positions", "why_tests_cant": "The input space is infinite (all ideals, all exponents); a test fixes one ideal, and a wrong split, base case or simplification can misbehave only on ideals of a particular shape.", "anchors": ["src/SatBinomIdeal.cpp:isPointFreeBody", "src/SatBinomIdeal.cpp:isInteriorEdge", "src/SatBinomIdeal.cpp:isTerminatingEdge", "src/SatBinomIdeal.cpp:getDoubleTriangleCount"]}
{"id": "C124", "title": "Validation of the graph of interior edges", "statement": "The validation always ends. It accepts exactly the generating sets that have a zero entry and those whose interior edges, but the terminating ones, have no cycle and where a generator has no interior edge out of it if it is interior itself and just one if not.", "quantifier": "all generating sets, and all graphs for the search for cycles", "why_tests_cant": "The input space is infinite (all ideals, all exponents); a test fixes one ideal, and a wrong split, base case or simplification can misbehave only on ideals of a particular shape.", "anchors": ["src/SatBinomIdeal.cpp:validate", "src/SatBinomIdeal.cpp:hasCycle"]}
{"id": "C125", "title": "Genericity of saturated binomial ideals", "statement": "Without zero entries and with distinct initial terms, the test for weak genericity tells whether the initial ideal is weakly generic. An ideal is called generic if it has no zero entry and its initial ideal is weakly generic.", "quantifier": "all generating sets", "why_tests_cant": "The input space is infinite (all ideals, all exponents); a test fixes one ideal, and a wrong split, base case or simplification can misbehave only on ideals of a particular shape.", "anchors": ["src/SatBinomIdeal.cpp:initialIdealIsWeaklyGeneric", "src/SatBinomIdeal.cpp:isGeneric", "src/SatBinomIdeal.cpp:hasZeroEntry"]}
{"id": "C126", "title": "Changes of saturated binomial ideals", "statement": "The initial ideal is made of the positive parts of the generators. Removing the generators with or without a zero as first entry leaves exactly the others. Projecting a variable away removes its name and its entry of every generator and nothing else.", "quantifier": "all generating sets and variables", "why_tests_cant": "The input space is infinite (all ideals, all exponents); a test fixes one ideal, and a wrong split, base case or simplification can misbehave only on ideals of a particular shape.", "anchors": ["src/SatBinomIdeal.cpp:getInitialIdeal", "src/SatBinomIdeal.cpp:removeGeneratorsWithLeadingZero", "src/SatBinomIdeal.cpp:projectVar", "src/SatBinomIdeal.cpp:isGenerator"]}
{"id": "C127", "title": "Reading saturated binomial ideals", "statement": "A file in the format of 4ti2 with the numbers of generators and variables, the entries and possibly the names of the variables is read as the ideal in it, whatever the white space. Every other file gives a syntax error or an ideal with distinct legal names and vectors of the right length.", "quantifier": "all ideals, layouts and files", "why_tests_cant": "The input space is infinite (all ideals, all exponents); a test fixes one ideal, and a wrong split, base case or simplification can misbehave only on ideals of a particular shape.", "anchors": ["src/Fourti2IOHandler.cpp:readSatBinomIdeal", "src/SatBinomRecorder.cpp", "src/SatBinomConsumer.cpp", "src/IOFacade.cpp:readSatBinomIdeal"]}
{"id": "C128", "title": "Neighbors that are sums", "statement": "For a lattice given by a basis and the list of its neighbors, the coordinates of the neighbors in the basis are found, the sum of two neighbors is found whenever it is a neighbor, and a neighbor is taken for a sum if and only if it is the sum of two other ones on the list.", "quantifier": "all bases and all lists of distinct neighbors in their span", "why_tests_cant": "The input space is infinite (all ideals, all exponents); a test fixes one ideal, and a wrong split, base case or simplification can misbehave only on ideals of a particular shape.", "anchors": ["src/LatticeAlgs.cpp:GrobLat", "src/LatticeAlgs.h:getSum", "src/Matrix.cpp:solve"]}
{"id": "C129", "title": "Pushing out a facet", "statement": "Pushing out a facet of a body finds the first neighbor that stops the facet: among the neighbors in the interior of all other facets the one with the least coordinate, and nothing if there is no such neighbor.", "quantifier": "all lists of neighbors, bodies and facets", "why_tests_cant": "The input space is infinite (all ideals, all exponents); a test fixes one ideal, and a wrong split, base case or simplification can misbehave only on ideals of a particular shape.", "anchors": ["src/LatticeAlgs.cpp:pushOutFacetPositive", "src/LatticeAlgs.cpp:pushOutFacetZero"]}
{"id": "C130", "title": "Maximal lattice free bodies", "statement": "The bodies that are computed for a lattice are, each once, exactly those that cannot be made larger: the origin is on the first facet only, a neighbor is on each other facet only, and no neighbor is in the interior. The points of a body are the origin and the neighbors in it.", "quantifier": "all lists of neighbors on one side of the origin that bound their bodies", "why_tests_cant": "The input space is infinite (all ideals, all exponents); a test fixes one ideal, and a wrong split, base case or simplification can misbehave only on ideals of a particular shape.", "anchors": ["src/LatticeAlgs.cpp:computeMlfbs", "src/LatticeAlgs.cpp:computeRhs", "src/SatBinomIdeal.cpp:getInitialIdeal"]}
{"id": "C131", "title": "Order of the points of a body", "statement": "If a body has as many points as facets then its points are listed in the order of the facets: each point is on the facet with its number and on no other one.", "quantifier": "all lists of neighbors as for the bodies", "why_tests_cant": "The input space is infinite (all ideals, all exponents); a test fixes one ideal, and a wrong split, base case or simplification can misbehave only on ideals of a particular shape.", "anchors": ["src/LatticeAlgs.cpp:reset", "src/LatticeAlgs.cpp:computeMlfbs"]}
{"id": "C132", "title": "Edges between bodies", "statement": "When a body is left through a facet, the edge that is told leads to a body on the list that contains, after a translation by a neighbor or none, all points of the first body but the one on that facet, and the point whose facet is told as hit lies on that facet of the new body. Telling the edges never fails.", "quantifier": "all lists of neighbors of a lattice on one side of the origin that bound their bodies, and all bodies and facets", "why_tests_cant": "The input space is infinite (all ideals, all exponents); a test fixes one ideal, and a wrong split, base case or simplification can misbehave only on ideals of a particular shape.", "anchors": ["src/LatticeAlgs.cpp:computeMlfbs"]}
{"id": "C133", "title": "Edges that have to be there", "statement": "If no two points of a body have the same entry for a facet other than the first, and a point other than the origin and the one on the facet has a positive entry there, then there is an edge through that facet.", "quantifier": "all lists of neighbors as for the bodies, and all bodies and facets", "why_tests_cant": "The input space is infinite (all ideals, all exponents); a test fixes one ideal, and a wrong split, base case or simplification can misbehave only on ideals of a particular shape.", "anchors": ["src/LatticeAlgs.cpp:computeMlfbs", "src/LatticeAlgs.cpp:pushOutFacetPositive"]}
{"id": "C134", "title": "Lowest point of a body", "statement": "The facet that is told for the lowest point of a body is the first one whose point has the least first entry.", "quantifier": "all lists of neighbors as for the bodies, and all bodies", "why_tests_cant": "The input space is infinite (all ideals, all exponents); a test fixes one ideal, and a wrong split, base case or simplification can misbehave only on ideals of a particular shape.", "anchors": ["src/LatticeAlgs.cpp:computeMlfbs"]}
{"id": "C135", "title": "Planes of double triangles", "statement": "The analysis finds a plane for exactly those pairs of neighbors whose sum is a neighbor, where no neighbor is in the interior of the bodies given by the origin, the sum and one of the two, but some neighbor is in the interior of the body given by the origin, both and the sum. Each plane is found once.", "quantifier": "all lists of different neighbors in a lattice that is given by a basis", "why_tests_cant": "The input space is infinite (all ideals, all exponents); a test fixes one ideal, and a wrong split, base case or simplification can misbehave only on ideals of a particular shape.", "anchors": ["src/LatticeAlgs.cpp:computePlanes", "src/LatticeAlgs.cpp:getSum", "src/SatBinomIdeal.cpp:isPointFreeBody"]}
{"id": "C136", "title": "Neighbors and bodies of a double triangle", "statement": "The neighbors that are told to be in the interior of the body of a double triangle are exactly those that are, and those told to be on the boundary are the origin and exactly the neighbors in the body that are not in the interior. The bodies at a side are exactly the maximal bodies that contain the neighbor of that side and the sum.", "quantifier": "all lists of neighbors and all three positions; for the bodies at a side, lists of neighbors as for the bodies", "why_tests_cant": "The input space is infinite (all ideals, all exponents); a test fixes one ideal, and a wrong split, base case or simplification can misbehave only on ideals of a particular shape.", "anchors": ["src/LatticeAlgs.cpp:Tri::Tri", "src/LatticeAlgs.h:hasPoint"]}
{"id": "C137", "title": "Sides of a plane", "statement": "For a plane through the origin and two neighbors, a neighbor is told to be in the plane exactly if it is a combination of the two, and two other neighbors are told to be on the same side exactly if they are. The number of points of a body in the plane is told correctly, and so is whether a body is flat, two on two, or a pivot.", "quantifier": "all lists of different neighbors in a lattice of dimension 3 that is given by a basis, all pairs of neighbors not on a line through the origin, and all bodies", "why_tests_cant": "The input space is infinite (all ideals, all exponents); a test fixes one ideal, and a wrong split, base case or simplification can misbehave only on ideals of a particular shape.", "anchors": ["src/LatticeAlgs.cpp:computePlanes", "src/LatticeAlgs.cpp:Plane::getPlace", "src/LatticeAlgs.cpp:Plane::getType", "src/LatticeAlgs.cpp:Plane::isPivot", "src/Matrix.cpp:nullSpace"]}
{"id": "C138", "title": "Index of a body", "statement": "The index that is told for a body with one point more than the lattice has dimensions is the determinant of its points other than the first in the basis of the lattice. It is 0 exactly if these points are dependent. For a body with another number of points the index is 0.", "quantifier": "all lists of different neighbors in a lattice that is given by a basis, and all non-empty lists of points", "why_tests_cant": "The input space is infinite (all ideals, all exponents); a test fixes one ideal, and a wrong split, base case or simplification can misbehave only on ideals of a particular shape.", "anchors": ["src/LatticeAlgs.cpp:Mlfb::reset", "src/Matrix.cpp:determinant"]}
{"id": "C139", "title": "Bodies that are parallelograms", "statement": "A body is told to be a parallelogram exactly if it has four points and the first one and one of the others add up to the same as the other two.", "quantifier": "all lists of different neighbors in a lattice that is given by a basis, and all lists of points", "why_tests_cant": "The input space is infinite (all ideals, all exponents); a test fixes one ideal, and a wrong split, base case or simplification can misbehave only on ideals of a particular shape.", "anchors": ["src/LatticeAlgs.cpp:Mlfb::reset", "src/Matrix.cpp:isParallelogram"]}
{"id": "C140", "title": "Degree of a body", "statement": "The right hand side dot product that is told for a body is its product with one vector of integers without a common divisor that is orthogonal to the lattice, the same vector for all bodies. Nothing is lost by rounding.", "quantifier": "all bases of lattices with one dimension less than the space, and all right hand sides", "why_tests_cant": "The input space is infinite (all ideals, all exponents); a test fixes one ideal, and a wrong split, base case or simplification can misbehave only on ideals of a particular shape.", "anchors": ["src/LatticeAlgs.cpp:computeMlfbs", "src/Matrix.cpp:nullSpace"]}
{"id": "C141", "title": "Numbers of bodies of each type", "statement": "The number of bodies that is told for a plane and a type is the number of bodies with that many points in the plane, the greatest type is the greatest such number of points, and 0 if there are no bodies, and the plane is told to have a flat body exactly if there is one.", "quantifier": "all planes and all lists of bodies", "why_tests_cant": "The input space is infinite (all ideals, all exponents); a test fixes one ideal, and a wrong split, base case or simplification can misbehave only on ideals of a particular shape.", "anchors": ["src/LatticeAlgs.cpp:computePlanes", "src/LatticeAlgs.cpp:Plane::getTypeCount", "src/LatticeAlgs.cpp:Plane::getMaxType", "src/LatticeAlgs.h:hasFlat"]}
{"id": "C142", "title": "Next and previous body of a sequence", "statement": "If each edge between bodies can be gone back then each position in a sequence of bodies has a next and a previous position. The body is left through the facet that is neither kept nor the one of entry, a kept facet whose number is hit on the other side gets the number of the facet that was left, and going on and going back undo each other.", "quantifier": "all tables of edges that go both ways, and all positions", "why_tests_cant": "The input space is infinite (all ideals, all exponents); a test fixes one ideal, and a wrong split, base case or simplification can misbehave only on ideals of a particular shape.", "anchors": ["src/LatticeAlgs.cpp:nextInSeq", "src/LatticeAlgs.cpp:prevInSeq", "src/LatticeAlgs.cpp:SeqPos::getReverse", "src/LatticeAlgs.cpp:SeqPos::order"]}
{"id": "C143", "title": "Sequences between pivots end", "statement": "The sequence of bodies that is computed from a pivot of a plane through a facet other than its flat one always ends. Each body in it is the next one of the one before, the last one is a pivot, and none between the first and the last is a pivot.", "quantifier": "all tables of edges that go both ways, all sets of pivots, all pivots and facets", "why_tests_cant": "The input space is infinite (all ideals, all exponents); a test fixes one ideal, and a wrong split, base case or simplification can misbehave only on ideals of a particular shape.", "anchors": ["src/LatticeAlgs.cpp:computePivotSeqs", "src/LatticeAlgs.cpp:nextInSeq", "src/LatticeAlgs.cpp:SeqPos::SeqPos"]}
