# Formal model of Frobby in Rocq: design

Source: `/repo` (Macaulay2/frobby, C++). Model: `/verif/rocq/theories`, logical name `Verif`.

## 1. Layout

| Kind | Files | Content |
|------|-------|---------|
| Specification | `Spec*.v` | Textbook notions only (divides, membership in an ideal, maximal standard monomial, irreducible component, ...). Contains no code of the model. |
| Model | `M_*.v` | One Gallina function per C++ function; each carries a comment with file and lines. No proofs. |
| Proofs | `P_*.v` | Lemmas. |
| Properties | `T_*.v` | The property theorems (names `Cxx_...`), each closed by `exact`, with `Print Assumptions`, and beside it an `Example` showing that a concrete non-trivial case meets its hypotheses. |

## 2. Representation decisions

* A term (`Exponent*`, `Term`) is a `list nat`, one entry per variable. Exponents inside the slice
  algorithm are small ids produced by the translator; they are modelled as unbounded naturals. The translator
  theorem shows the ids never exceed (number of generators + 1), which justifies leaving out 32-bit overflow.
* `C++ vector<Exponent*>` ideals are `list (list nat)`. Where the C++ code permutes pointers in place
  (swap to the front/back) the model keeps the same set of entries; order is not part of any property except
  where sorting is the property. `std::sort` is modelled by insertion sort on the same comparator.
* Input exponents (`mpz_class`) are `nat` (the API documents nonnegative exponents; a negative exponent indexes `seen[]` out
  of bounds in `extractExponents`, i.e. is undefined behaviour). Output exponents and translator tables are `Z`, so no truncated
  subtraction hides an error of sign.
* Loops become structural recursion or recursion on explicit fuel. Running out of fuel is a distinct outcome (`None`);
  every theorem about such a function either states that some amount of fuel succeeds, or concludes about
  the `Some` outcome together with a separate termination theorem.
* Consumers are modelled as the list of events they receive (`idealBegin n`, `consume v`, `idealEnd`, ...).
* Choices which the code leaves to a strategy object (pivots) are function parameters of the model, restricted by an explicit
  legality predicate; the concrete strategies are modelled too and proved to satisfy it.

## 3. Plan per property

* C01, C02, C03 irreducible decomposition. Model: `TermTranslator`, `Ideal::minimize`, `addPurePowersAtInfinity`, `MsmSlice`, `MsmStrategy`,
  the translating consumer and the API function. Proof: content of a slice
  con(I,S,q) = {q*m : m maximal standard for I, m not in S}; each step preserves it; order-only characterisation of maximal
  standard monomials makes the compressed and the big problem equivalent.
* C04 same machinery without pure powers, with `decrement`.
* C05 measure on slices; fuel bound theorem. C06 corollary of exactness for any legal pivot rule and option setting.
* C07-C10 Alexander dual: translator after `dualize`; C10 by applying the exactness theorem twice.
* C11, C12 from C01 by support of components / dual of the components.
* C13, C14 Hilbert: coefficient function of the indicator of the ideal is linear, hence compatible with slices.
* C15, C16 dimension: invariant of the branch and bound recursion.
* C17, C18 optimisation: bound invariant. C18 is expected to be refuted (the code writes an empty ideal).
* C19 state machine induction over call histories. C20 event grammar, per API function. C21 corollary of exactness.
* C22, C23 lists of monomials; sorted-list invariants.
* C24 sorted duplicate-free tables, `lower_bound`.
* C25 slice operations, one lemma each. C26 strategy by strategy.
* C27, C28 union-find as class labels; projections.
* C29 stack machine refinement to recursive evaluation.
* C30 inclusion-exclusion / indicator linearity, any pivot: the terms written so far and the series of the open states always sum to the series;
  each split makes the number of standard monomials below the lcm smaller. C67 by induction over the loops.
* C31 reduced Euler characteristic as a sum over faces; the state machine keeps accumulator plus the signed values of the states on the
  stack; every split makes a measure of the stack smaller. Terms as lists of booleans. `rand()` and the strategy are parameters.
* C32 words as `N` with bit operations, related to sets of variables.
* C33-C36, C51-C57 characters as `ascii`, writer and scanner as functions on lists; C36 refuted for leading zeros. Round trips by induction
  over generators with an invariant of the input consumer; C53 by a predicate on results ("well formed or an error") kept by every reader.
* C37-C39 lists; C39 expected to be refuted. C40-C42 state machines over histories.
* C43: all ideals written over the union of the names, then the translator embeds exponents in order, lcm is intersection. C44, C61 pointwise, lifted to the action; C62 strict total orders make sorted results unique; C63 the stages of the pipeline commute with mapping over the list; C64 an invariant (one ring, distinct names) kept by every stage; C65, C66 by C43 and C52, C53. C42, C59, C60 invariant over all histories: blocks form a chain through memory, allocations are stacked in them. C45 dynamic programming invariant (termination from gcd 1), C58 with the reader in front of it. C46 from C15, C17. C47 order embedding.
* C47, C68: a deformation keeps the strict order of exponents, so lcms of deformed generators map back; the faces of the Scarf complex are the sets
  whose lcm is not strictly contained, enumerated depth first; the alternating sum over them is the indicator of the ideal, by induction
  over the generators of a generic ideal. C69 partition invariant of the in-place loop. C70 stable sorts compose; names by splitting.
* C71-C74: each reader undoes each writer token by token, from the lemmas for ideals; the streamed writer writes the same text as the writer of
  stored polynomials; reading keeps the number of exponents. ptransform: sorting names and terms by strict total orders, so results are unique.
* C48, C49 from the run invariant of C17: every slice content not consumed is no better than the value to beat.
* C50 the sorting permutation is a bijection; the cycle loop keeps the invariant that finished positions hold their final value.
* C75-C80: the terms the facades send to the output are those of C01 to C24; the consumers between them and the writer (sorting, translating,
  splitting, consolidating) are shown to turn the writer's text into that of the list of translated terms, which the round trips of C53 and C54
  read back. For C79 the sorted list and the sorted names are determined by the ideal. C78 has a counterexample with -canon and a point.
* C81-C82: the action analyze; its counts, lcm and largest exponent are folds over the generators, and the genericity of the translated ideal
  (C67) is that of the input because translation is an order embedding in each variable.
* C83-C86: the actions optimize, dimension and euler; the numbers are those of C49, C15, C46 and C31, and the shown solutions are what C48
  reports, sent through the consumers of C75. The names of pivot strategies are a small grammar that the parser is shown to accept. Detection
  looks at the first character that is not white space, and every reader starts with an expectation that determines it. C83 has
  counterexamples for -canon and for -minimal with -chopFirstAndSubtract.
* C87-C90: the action hilbert. Each of the three algorithms feeds one consumer, so the text is that of C72 for the numerator of C13,
  C14, C30 or C68; C88 uses that the numerator is unique and that -canon sorts it. The name factories are shown to accept exactly the names and
  their unambiguous prefixes. C90 has a counterexample for abbreviations of the strategies that need a grading.
* C91-C96: the program itself. `M_Main` is a function from the arguments and the text of the input to the text of the output. What a command
  line means is specified as a relation: the tokens are groups, one per setting. Parsing is proved to decide that relation, by induction on the
  number of tokens with the values after some settings as invariant. The tables of options in `Spec_Main` are written from the documentation
  and compared with those of the model by computation. The theorems about actions (C75-C90) are then composed with it.
* C97-C104: the generators of ideals and of instances of the Frobenius problem. Each family is described in `Spec_Generate` by a property of
  monomials; `exactly` says that the list has each monomial with the property once and no other one. The loops of rooks and matchings keep a
  stack of choices in several arrays: the arrays are shown to be functions of the stack, and a run from a state is shown to print the
  extensions of the stack and to come back to the state. For matchings, the number of nodes that are left out has the parity of n. The random
  numbers are a parameter; that a loop ends is proved or refuted.
* C105-C112: linear algebra. `M_Matrix` has the entries as canonical fractions (`Qc`). `Spec_Matrix` has spans, independence, dimension,
  echelon forms, the determinant by expansion and parallelograms without reference to row operations. Proved through elementary row
  operations as an inductive relation, the uniqueness of the reduced form and the exchange lemma.
* C113-C116: lattice bases and frobgrob. The texts of the two formats and the lattice generated by the rows are specified in `Spec_Lattice`.
  A Grobner basis is a set of relations that are leading for an additive order, such that the positive part of some member divides the
  positive part of every leading relation. That the best maximal standard monomial gives the Frobenius number is proved from that alone: each
  residue has exactly one standard monomial, which has the least inner product among the combinations with that residue.
* C117: frobgrob and latformat as actions of the program in `M_Main`; the theorems combine C91-C92 with C113-C115.
* C118-C119: the layout of text on the console. `displayed` in `Spec_Display` is a relation between a message and what is shown that says where
  lines are broken; that the words are the same, that lines are not too wide and that short lines are unchanged follow from it. Columns are
  specified row by row.
* C120-C121: the action help. The texts of descriptions are a parameter of the model; the options and defaults are those of `options_of` in
  `Spec_Main`, which C91-C93 are about, and the formats are specified by what the readers and writers of the model support, so that the theorems
  say that help tells the truth.
* C122: the output formats count and null, for the seven actions that print ideals and the two that print polynomials. `M_Count` is the program when one of these formats is chosen,
  which `M_Main` leaves out. The theorems say that the numbers are the sizes of the sets that C75-C78 specify; for transform and intersection
  they compare with the run in which another format is chosen.
* C123–C127: saturated binomial ideals, the data type of the analysis of lattices. `M_SatBinom` has the tests on the generators, the depth first
  search for cycles with its colors, the removal loops and the reader of the format of 4ti2. `Spec_SatBinom` says what bodies, edges, cycles and
  double triangles are without any of these functions. The search is proved right for every graph: the gray vertices reach the current one, the
  black ones have only black successors and are on no cycle, and the number of white ones bounds the depth. The theorem about weak genericity uses
  the definition of `Spec_Scarf`, on the monomials of the positive parts.
* C128–C131: lattices with neighbors and their maximal lattice free bodies. `M_Mlfb` has the coordinates of the neighbors, their sums, pushing out
  facets, and the bodies with their points. `Spec_Mlfb` says what a body that cannot be made larger is, without ideals. C128 uses the theorem on
  linear systems (C106) and the independence of the basis. C129 is an invariant of the loop. C130 is a bijection between the bodies and the
  irreducible components of the initial ideal, with the theorem on irreducible decompositions. C131 is an invariant of the two nested loops that
  swap points.
* C132–C134: the edges between the bodies. `M_Mlfb2` has the search for the point that is hit when a facet is pushed in, the new right hand side and
  the search for it on the list. `Spec_Mlfb2` says what it means to leave a body through a facet. C132 has the three cases of the comments in the
  code; in the third one it is used that a sum of two neighbors has a neighbor below it (`closed`), which is so for lattices. C133 shows that the new
  right hand side is that of a maximal body and uses C130; it is about the first case. In the other two cases the translated points would have to
  be on the list of neighbors, which the list alone does not tell.
* C135–C137: the planes of double triangles. `M_Planes` has the loops that look for the pairs, the places of the neighbors, which are the signs of a
  product with the first vector of a null space, the types of bodies, and the class `Tri`. `Spec_Planes` says what a double triangle is, and what it
  means to be in a plane and on the same side of it, in terms of combinations of vectors of rational numbers. C137 uses C108 for the null space, that
  the vectors with value 0 are a space of dimension 2, and the coordinates from C128. It is about lattices of dimension 3.
* C138–C141: the numbers that are told about a body and a plane. `M_Index` has the index, the test for parallelograms and the degree of a body and the
  histogram of types. C138 and C139 compare with determinants and sums in terms of the entries of the points, not of the matrix of coordinates, and
  use C110, C111 and C128. C140 uses C108. C141 is by induction over the list of bodies; what a type is, is in C137.
* C142–C143: the sequences of bodies at a plane. `M_Seq` has positions in sequences, the steps on and back, and one sequence of `computePivotSeqs`.
  C142 gives the step as a relation that does not mention the code's loops. C143 is termination: a step can be undone and there are finitely many
  positions, so each walk comes back to its start, which is a pivot. That edges go both ways is a hypothesis on the table of edges, it is not
  derived from C132.

## 4. Trusted base

* Coq 8.16.1 kernel (with its `vm_compute`), and the standard library.
* Axioms: see the `Print Assumptions` outputs: "Closed under the global context" for every theorem. Loading `Permutation`/`Lia` brings the
  module `Coq.ssr.ssrunder` of the standard library into scope, which declares axioms of its own; no theorem here depends on them.
* The manual translation C++ -> Gallina (cited line by line), including the assumptions of section 2.
* Not modelled: memory management, exceptions such as `bad_alloc`, 32/64-bit overflow of counters, I/O system calls,
  statistics / debug strategies, timing.

### What each model file covers

| File | Code |
|------|------|
| `M_Term` | `TermExtra`/`Term.h`: all operations on exponent vectors used by the algorithms |
| `M_Ideal` | `Ideal.cpp`, `Minimizer.cpp` (all three minimizers, both colon-reminimizations) |
| `M_Slice`, `M_Msm` | `Slice.cpp`, `MsmSlice.cpp`, `MsmStrategy.cpp`, `SliceStrategyCommon.cpp`, `SplitStrategy.cpp` (`DegreeSplit` is in `M_Opt`) |
| `M_Partition` | `Partition.cpp`, `Projection.cpp`, `IndependenceSplitter.cpp` |
| `M_Tasks` | `TaskEngine.cpp` |
| `M_Api` | `TermTranslator.cpp`, `CommonParamsHelper::setIdeal`, `frobby.cpp` (ideal entry, consumers, decoder), `SliceFacade.cpp` (decompositions, duals) |
| `M_Hilbert` | `HilbertBasecase.cpp`, `HilbertSlice.cpp`, `HilbertStrategy.cpp`, `HilbertIndependenceConsumer.cpp`, `UniHashPolynomial.cpp`, `TotalDegreeCoefTermConsumer.cpp`, the two series functions of `frobby.cpp` |
| `M_Dim` | `SizeMaxIndepSetAlg.cpp`, `IdealFacade::computeDimension`, `Frobby::dimension` and `codimension` |
| `M_Opt` | `TermGrader.cpp`, `OptimizeStrategy.cpp`, `DegreeSplit`, `SliceFacade` (solveProgram, both programs, takeRadical, computeDimension), `Frobby::solveStandardMonomialProgram`, `OptimizeAction::perform` |
| `M_SqFree` | `RawSquareFreeTerm.h`/`.cpp`, and of `RawSquareFreeIdeal.cpp` the functions that work on words: `hasFullSupport`, `getExclusiveVarGenerator`, `getVarDividesCounts`, `compact`, `getBytesOfMemoryFor` |
| `M_Euler` | `PivotEulerAlg.cpp`, `EulerState.cpp`, `PivotStrategy.cpp`, the rest of `RawSquareFreeIdeal.cpp` that they use, `EulerAction::perform`; terms as lists of booleans (C32 relates words to them). `rand()` is a parameter. Not modelled: the arena, debug and statistics strategies |
| `M_Poly` | `Polynomial.cpp`, `HashPolynomial.cpp`, `UniHashPolynomial.cpp`, `CanonicalTermConsumer.cpp`, `CanonicalCoefTermConsumer.cpp`, `IdealComparator.cpp`, the term order of `BigPolynomial.cpp`. A hash map is a list of pairs that is rearranged arbitrarily after every operation. Not modelled: running out of memory |
| `M_Names` | `VarNames.cpp`, `VarSorter.cpp`, `NameFactory.h`, swapVariables of `TermTranslator.cpp`, sortVariables of `BigIdeal.cpp` and `BigPolynomial.cpp`, the sorting of variables in `CommonParamsHelper.cpp`. The hash map of names is an association list; a pointer to a key is that key, and using one that is not in the map is undefined. Not modelled: running out of memory, the string tables of a translator |
| `M_IO` | `Scanner.h/.cpp`, `InputConsumer.cpp`, ideal and ring reading and writing of `IOHandlerCommon.cpp`, `Macaulay2IOHandler.cpp`, `MonosIOHandler.cpp`, `SingularIOHandler.cpp`, `CoCoA4IOHandler.cpp`, `NewMonosIOHandler.cpp`, `Fourti2IOHandler.cpp`, term output of `IOHandlerImpl.cpp`, `IdealWriter.cpp`, autoDetectFormat of `IOHandler.cpp`, readIdeal(s), readSquareFreeIdeal, writeIdeal(s) of `IOFacade.cpp`. Characters are bytes in the C locale, numbers of gmp are modelled by their documented meaning. Not modelled: line numbers in messages, read errors of the file, the null and count formats, polynomials, Frobenius instances |
| `M_Frob` | `dynamicFrobeniusAlgorithm.cpp`, `readFrobeniusInstance` of `IOHandler.cpp`, `DynamicFrobeniusAction.cpp: perform` | the std::set of representable numbers is a list, `representableRun` is an int with an explicit largest value beyond which the outcome is undefined |
| `M_Arena` | `Arena.h`, `Arena.cpp` except constructors and destructors of array elements | 64 bit sizes and addresses, sizeof(Block) = 32; memory maps addresses to values, a stored pointer is one value; operator new is a parameter; block headers are really stored in that memory |
| `M_Intersect` | `IntersectFacade.cpp`, `intersect.cpp`, the part of `TermTranslator.cpp` for several ideals, `BigIdeal::insert` | a VarNames object is the list of names it shows (C40); exponents are natural numbers |
| `M_Transform`, `M_Actions` | `TransformAction.cpp`, `IntersectionAction.cpp` (perform), the transformations of `BigIdeal.cpp` and `IdealFacade.cpp` | as `M_Intersect`; `std::sort` is insertion sort (C62 shows that the result does not depend on the algorithm); erasing at or marking a place that a vector does not have is the outcome undefined |
| `M_Bigatti` | `BigattiFacade.cpp`, `BigattiHilbertAlgorithm.cpp`, `BigattiState.cpp`, `BigattiBaseCase.cpp`, `BigattiPivotStrategy.cpp` and the genericity and exponent statistics of `Ideal.cpp` | the task engine of `M_Tasks`; big numbers are `Z`, exponents natural numbers; the hash map hands out its entries in any order; debug output left out |
| `M_Scarf`, `M_ScarfFacade` | `ScarfFacade.cpp`, `ScarfHilbertAlgorithm.cpp`, `Deformer.cpp`, `IdealTree.cpp` | the stack of states is a list with fuel; the tree holds its ranges as lists, the partition works on lists with positions as the code does on the array; statistics left out |
| `M_Orderer` | `IdealOrderer.cpp`, `TermExtra.cpp` | `std::stable_sort` by its documented meaning; what `std::shuffle` does is a parameter |
| `M_IOPoly` | `IOHandlerImpl.cpp`, `IOHandlerCommon.cpp`, the four handlers with polynomials, `PolyWriter.cpp`, `PolynomialConsolidator.cpp`, `BigPolynomial.cpp`, `PolyTransformAction.cpp` | text instead of files; output formats `null` and `count` left out; a failed assertion is `Undefined` |
| `M_Cli` | `CommonParamsHelper.cpp`, `IrreducibleDecomAction.cpp`, `MaximalStandardAction.cpp`, `AssociatedPrimesAction.cpp`, `PrimaryDecomAction.cpp`, `AlexanderDualAction.cpp`, `CanonicalTermConsumer.cpp`, `TranslatingTermConsumer.cpp`, `IrreducibleIdealSplitter.cpp`, `IdealConsolidator.cpp`, `IOFacade::readAlexanderDualInstance`, `IOHandler::readTerm` | text instead of files; parsing of the command line, progress output and the output formats `null` and `count` left out |
| `M_Analyze` | `AnalyzeAction.cpp`, `IdealFacade.cpp` printAnalysis | text instead of files; progress output left out |
| `M_Cli2` | `DimensionAction.cpp`, `EulerAction.cpp`, `OptimizeAction.cpp`, `IOFacade::readVector`, the names in `PivotStrategy.cpp` and `NameFactory.h` | text instead of files; the options of the slice algorithm are given as parsed; `-debug` and `-stats` left out |
| `M_Cli3` | `HilbertAction.cpp`, the names of `SplitStrategy.cpp`, `BigattiPivotStrategy.cpp` and `IdealOrderer.cpp`, `SliceParams::validateSplit` | text instead of files; hash orders, `rand` and shuffles are parameters; `-debug`, `-stats` and the base case options of the Bigatti algorithm other than generic left out |
| `M_Generate` | `randomDataGenerators.cpp`, `GenerateDataFacade.cpp`, `GenerateIdealAction.cpp`, `GenerateFrobeniusAction.cpp`, `writeFrobeniusInstance` of `IOFacade.cpp` | the notes about missing generators on stderr left out; random numbers are a sequence that is a parameter; `std::sort` of integers is an insertion sort; sizes of int and size_t other than those that are compared with are unbounded |
| `M_Main` | `main.cpp`, `Action.cpp`, `CliParams.cpp`, `Parameter.cpp`, `BoolParameter.cpp`, `IntegerParameter.cpp`, `StringParameter.cpp`, `IOParameters.cpp`, `SliceParameters.cpp`, `SliceParams.cpp`, `ScarfParams.cpp`, `CommonParams.cpp`, the constructors, `obtainParameters` and `perform` of 18 actions | error messages, timing and statistics on stderr left out; the formats null and count (see `M_Count`) and the actions latanal and test, and help (see `M_Help`), are not modelled there and stand out as `Undefined`; `mpz_set_str` as documented |
| `M_Matrix` | `Matrix.cpp`, `Matrix.h` but for printing | entries as a list of rows; loops whose iterations do not read what others write give all entries at once; result and operands are different objects |
| `M_Lattice` | `fourti2.cpp`, `fplllIO.cpp`, `lattice.cpp`, `LatticeFormatAction.cpp`, `FrobeniusAction.cpp`, parts of `IOFacade.cpp` and `BigTermRecorder.cpp` | text instead of files; indices of type unsigned int are unbounded; the values of the options are given |
| `M_Display` | `display.cpp`, `ColumnPrinter.cpp` | the text that is printed instead of printing it; no NUL bytes in the text |
| `M_Help` | `HelpAction.cpp`, parts of `main.cpp`, `IOParameters.cpp`, `IOHandler.cpp`, `DataType.cpp`, the registrations of the formats and the types that the actions declare | the texts of descriptions are given; what is printed on the error stream is the result |
| `M_Count` | `CountingIOHandler.cpp`, `NullIOHandler.cpp`, `NullTermConsumer.cpp`, `NullCoefTermConsumer.cpp` and what `M_Cli` and `M_Main` model, for these output formats | single terms in these formats, and null as input format, left out |
| `M_SatBinom` | `SatBinomIdeal.cpp`, `SatBinomRecorder.cpp`, `SatBinomConsumer.cpp`, `Fourti2IOHandler.cpp` (saturated binomial ideals) | printing left out; `LatticeAnalyzeAction.cpp`, which uses it, left out; memory is unlimited |
| `M_Mlfb` | `LatticeAlgs.h`, `LatticeAlgs.cpp` (`GrobLat`, `getSum`, `pushOutFacetPositive`, `pushOutFacetZero`, `computeRhs`, the order of points in `reset`, the bodies in `computeMlfbs`) | sequences and checks of them left out; the slice algorithm runs with the defaults |
| `M_Mlfb2` | `LatticeAlgs.cpp` (the rest of `computeMlfbs`) | bodies are told by their positions in place of pointers |
| `M_Planes` | `LatticeAlgs.cpp`, `LatticeAlgs.h` (`computePlanes` but for the sequences, `Tri`, `Plane`: places and types) | side bodies are values in place of pointers; what is derived from edges (side pivots, flat sequences) left out |
| `M_Index` | `LatticeAlgs.cpp`, `LatticeAlgs.h` (index and parallelogram in `Mlfb::reset`, `dotDegree` in `computeMlfbs`, `typeCounts`) | a `std::map` is a sorted list of pairs; the null space is computed for each body anew |
| `M_Seq` | `LatticeAlgs.cpp`, `LatticeAlgs.h` (`SeqPos` but `operator<` and `getBackFacet`, `nextInSeq`, `prevInSeq`, the loop of `computePivotSeqs`) | bodies are numbers, edges are a table; `pivotToFlatFacet` and `isPivot` are arguments; `do … while` has fuel |

Evidence that the model is the program, which is a test and not a proof: `validation/gen.py` runs `frobby` of `M_Main` in Coq on the inputs
in `/repo/test` and compares what it prints with the reference outputs there. Of the 993 runs with inputs of up to 120 bytes and the 325 with
120 to 260 bytes, all that ended within the time limit gave the reference output byte for byte, or an error of the right kind where an error is
expected. The others are two runs with the format null, which is not modelled, and runs with exponents that are too large for unary numbers.

Not modelled inside those files: debug and statistics strategies, the `print` functions, reuse of `Task` objects, and the
memory pools behind terms.

## 5. Findings

* F2. `MsmSlice::baseCase` with one variable and simplification off consumes `_multiply` without looking at the exponent of the single
  generator, so on the slice of <x^e>, e >= 2, the result is wrong (`C06_univariate_condition_needed`). Frobby never gets there through its
  facades because exponent compression turns the exponent of a single generator into 1. The theorems carry the condition
  `uncompressed_ok`.
* F3. `Frobby::primaryDecomposition` can write two ideals with the same radical. `SliceFacade::computePrimaryDecomposition` sorts the
  irreducible components in reverse lexicographic order and joins only neighbours with equal support, but equal supports need not be
  neighbours in that order. Witness (`C12_refuted`): <x^3,z> cap <x^2,y> cap <x,z^3> is written as three ideals although (x,z) and (x,y) are
  the only associated primes. `C12_primary_decomposition_partial` states what holds, including the one-to-one claim when equal supports
  are neighbours.
* F4. `Frobby::solveStandardMonomialProgram` writes `idealBegin`, `idealEnd` when there is no solution, although `frobby.h` says that
  nothing is written (`C18_refuted`).
* F5. `OptimizeStrategy::consume` compares the degree with `_maxValue` before any solution was found. `_maxValue` is then 0, so if all
  solutions are requested and the first one found has degree 0, `_maxValueToBeat` is not lowered, and if 0 is the optimum other optimal
  solutions are lost (`C48_all_solutions_refuted`: <x^2,xy,y^2,z^2> with vector (1,1,-1) reports yz but not xz).
* F6. `SliceFacade::computeDimension` with simplification off returns 0 instead of 1 for the zero ideal in one variable
  (`C46_condition_needed`), another instance of F2: the 0/1 translation table undoes exponent compression. The command line always uses
  the default parameters here, with simplification on.
* F7. In a ring without variables a term still has one word, but `setToIdentity`, `setToAllVarProd`, `encodeTerm` and
  `RawSquareFreeIdeal::compact` do not write it (`C32_no_variables_refuted`). Latent: no caller in the program gets there.
* F8. Euler characteristic with `-impliedDiv on -uniqueDiv off -manyDiv off`: `baseCasePreconditionSimplified` counts three generators as
  +2 although that needs the other simplifications; <x,y,z> gives 2 instead of -1 (`C31_pairs_refuted`).
* F9. With `-uniqueDiv off` the pivots `popgcd` and `widen_...` do not terminate on <x,y,z,w>: one state after the split is the state before
  it (`C31_popgcd_refuted`).
* F10. `GenComposite::doPivot` can lose all candidates, although the help text says that then all are kept. A `random` filter after that
  computes `rand() % 0` (`C31_composite_refuted`: `minsupp_popvar_random` on six generators, default settings).
* F11. `Polynomial::sortTermsReverseLex` with collection keeps a term with coefficient zero at the end if the smallest monomial cancels
  (`C39_refuted`; `C39_partial` says that this is the only case). The Hilbert series of `frobby hilbert -canon` are not affected: they are
  collected before (C13), and then `C37_polynomial` applies.
* F12. `CanonicalTermConsumer` never leaves list mode: an ideal passed to it after a list is withheld (`C37_reuse_refuted`). No action does that.
* F13. `CoCoA4IOHandler`'s writeTermProduct with a translator never leaves out a variable, because `TermTranslator::getExponentString` is
  never null: it prints `x[1]^0`. Ideals so written are still read back (C55), polynomials are not: readVarPower rejects exponent 0.
* F14. The zero polynomial is written as `0`, which the Macaulay 2, Singular and CoCoA 4 readers turn into one term with coefficient 0.
* F15. Exponents are assigned to an `mpz_class` from a string, which gmpxx parses in base 0: `x^010` is read as x^8 and `x^08` ends in a
  `std::invalid_argument` (`C36_refuted`), in every format.
* F16. `dynamicFrobeniusAlgorithm` starts with 0 as the largest number that is not representable, so for three or more numbers
  with 1 among them it returns 0, which is representable (the answer -1 is given for two numbers). The reader rejects 1, so the
  action is not affected (`C45_refuted`). The counter of consecutive representable numbers is an int, so three or more numbers
  that all exceed INT_MAX lead to undefined behaviour (after more steps than are practical).
* F17. `Arena::growCapacity` saves the current block as previous block even if nothing is allocated in it. After `alloc(10)`, `freeTop`,
  `alloc(100000)`, `freeTop` there are no live allocations but `isEmpty()` is false (`C59_refuted`), and `freeTop` on an allocation below
  such a block updates the wrong block's `_freeBegin` (the ASSERT in `freeTopFromOldBlock` would fail in debug mode). Memory stays
  safe (C42), but older blocks are then kept until the arena is destroyed.
* F18. `Arena::growCapacity` links the current block to its saved copy before calling `new`. If that throws, the current block is its own
  previous block, and the destructor deletes it twice (`C60_refuted`).
* F19. `frobby transform` on ideals in rings with different numbers of variables: `-projectVar` and `-trimVariables` use the number of
  variables of the last ring for all ideals, and erase or mark beyond the end of a vector (`C64_refuted`: <x> in QQ[x] and <x> in QQ[x,y]).
  Only `-product` checks that the rings agree.
* F20. `frobby hilbert -algorithm deform` (weak deformation is the default) can give a wrong series for generators that are not minimal.
  The exponents are compressed before redundant generators are removed, so the compressed minimal generators can have gaps in their
  exponents. `Deformer::deform` renumbers the exponents of a variable as 1, 2, ... and asks in between whether some generator strictly
  divides an lcm; after a gap the new number can be smaller than the old one, so that a generator that shares the exponent seems to have a smaller one.
  <x^5y^2z, x^3y^3z^3, xy^4z^5, y^2z^5, x^4y^5z^5, x^5y^3, x^5yz^4> gets coefficient -2
  instead of -1 at x^5y^3z^5 (`C68_refuted`, `C47_weak_refuted`).
* F21. The 4ti2 reader of polynomials ignores whether `VarNames::addVar` accepted a name. If a name is repeated, as in
  `1 3 1 1 1 (coefficient) x x`, the polynomial has fewer names than exponents per term; `BigPolynomial::renameVars` asserts that this does
  not happen, and without assertions later code reads names that are not there (`C73_refuted`). The reader of ideals reports an error here.
* F22. `frobby alexdual -canon` with a point: the variables of the ideal are sorted by name but the exponents of the point keep their
  places. For QQ[z,y], <z^2, zy> and the point z^5y an error is reported although the generators divide the point
  (`C78_canonical_point_error_refuted`), and for z^5y^4 the output is the dual with respect to z^4y^5 (`C78_canonical_point_refuted`).
* F23. `frobby analyze -minimal -summaryLevel 2`: the ideal is minimized for the first option and the summary is of what is left, so the
  output can say `0` (not minimally generated) and then `minimally generated: yes` with fewer generators (C82_summary_refuted).
* F24. `frobby optimize -canon`: the variables of the ideal are sorted by name but the entries of the vector keep their places. For
  QQ[z,y], <z^2, zy, y^3> and the vector 10 1 the printed value is 31 with -canon and 21 without (`C83_canonical_vector_refuted`).
* F25. `frobby optimize -minimal -chopFirstAndSubtract`: the promise of -minimal is about the input, but it is applied to what is left after
  the first variable is removed, which need not be minimal. For <xz, x^2y, y^2> and the vector 10 1 1 the printed value is -7 with -minimal
  and -8 without (`C83_chop_minimal_refuted`).
* F26. `frobby hilbert -algorithm slice -split deg`: `validateSplit` compares the option with the full names `degree` and `frob`, but the name
  factory accepts prefixes. So the strategy is used without a grading and the computation stops with an internal error, where `-split degree`
  is reported as not allowed (`C90_degree_abbreviation_refuted`). The same holds for the other actions that call `validateSplit` without
  allowing degree splits.
* F27. `frobby genfrob` divides the first number by the greatest common divisor of all numbers so that the result has none. But the numbers
  8 and 4 give 2 and 4, which still have the common divisor 2, and the program then does not accept them as an instance
  (`C103_coprime_refuted`). A number can also be 1, which is not accepted either; one number alone always gives 1.
* F28. `frobby genfrob -maxEntryDigits d` can print 10^d, which has d + 1 digits (`C103_digits_refuted`): the range includes its upper end.
* F29. `frobby genideal -type edge` counts a try twice if the two variables are different and once if they are equal, and stops if the number
  of tries left is exactly 0. The number can be stepped over; then the program runs on until size_t has wrapped around, or for ever
  (`C102_ends_refuted`: for every machine with an odd largest size_t and at least 2 variables there are such random numbers).
* F30. `frobby genideal -type edge -varCount 0` computes `rand() % 0` (`C102_no_variables_refuted`).
* F31. `Matrix.h` says that after `rowReduceFully` no column contains two non-zero entries and all entries are zero or one. Both are false
  (`C105_zero_one_refuted`, `C105_two_entries_refuted`); what holds is that this is so for the columns with a pivot (C105).
* F32. `inverse` of a matrix with no rows and no columns reads the entry (size - 1, size - 1), which does not exist (`C107_empty_refuted`).
* F33. The option -zero of `frobby latformat` is described as "Adjust lattice basis to increase the number of zero entries". There can be fewer
  zero entries afterwards (`C114_more_zeroes_refuted`).
* F34. `frobby latformat -zero` looks up an entry that does not exist if the matrix has no rows or no columns (`C114_empty_undefined`).
* F35. `frobby frobgrob -canon` with eleven or more numbers sorts the variables by name, so that x10 comes before x2, but not the numbers, and
  prints a wrong number (`C115_canon_refuted`).
* F36. `frobby frobgrob` looks up a solution that does not exist if the ideal in the input has no maximal standard monomial
  (`C115_no_solution_refuted`).
* F37. `display` says that a word that is too wide "will print beyond the console width if word is the first thing we are printing on this
  line", but the prefix and the indentation count as things printed on the line: a word that does not fit after them comes after a line that
  has only the prefix and the indentation (`C118_one_line_refuted`).
* F38. `frobby irrdecom`, `maxstandard` and `assoprimes` fail with an error for every input in the formats cocoa4, singular and newmonos unless
  another output format is given. They ask for a writer of a list of ideals, which these formats do not register, although `maxstandard` and
  `assoprimes` write one ideal and all three actions declare to `IOParameters` that they write an ideal, so that `frobby help` lists the formats
  as supported (`C75_input_format_refuted`, `C76_no_lists`, `C121_output_formats_refuted`).
* F39. `SatBinomIdeal.h` says other things than the code. An interior pair is said to be one where max(0,a,b) is positive in every entry; the code
  ignores the first entry and also asks for a body without generators in it (`C123_comment_refuted`). A terminating edge is said to need
  {from,to+from} interior and {to,to+from} an edge; in the code it is the other way around (`C123_edges`). A generic ideal is said to be one without
  zero entries; the code also asks for a weakly generic initial ideal (`C125_generic`). And `initialIdealIsWeaklyGeneric` answers no for a weakly
  generic initial ideal if an entry 0 is where the definition of strict divisibility asks nothing (`C125_zero_entry_refuted`): the code wants
  it to be less than the entry of the least common multiple, even if both are 0.
* F40. The analysis of lattices does not look at whether the system of equations for the coordinates of the neighbors has a solution. If a neighbor
  in the file is not in the lattice of the other file then there are no coordinates at all, no neighbor is taken for a sum, and the analysis goes on
  (`C128_unchecked_refuted`).
* F41. The analysis of lattices looks for planes in lattices of any dimension. In a lattice of dimension 2 the null space is zero, and for a double
  triangle the first column of a matrix without columns is read (`C137_dimension_refuted`). The data of the witness need not be those of a lattice;
  the program does not check that they are.
* Not provable wrong, but odd: the comments on `_interior` and `_boundary` in `Tri` are the wrong way around; the names are right (C136).
* Not provable wrong, but odd: `frobby help help` lists no options, although -time is accepted by the action help.
* Not provable wrong, but odd: `frobby dimension -useSlice` ignores -iformat. By C86 this only matters for a text that cannot be read in the
  format that was given. The options -bound and -boundSimplify of the optimizer cannot be switched off together in a way that has an effect
  (`SliceParams.cpp`).
* Not provable wrong, but odd: the error message for a number on the command line says that it must be in the range [0, 2^31-1], but numbers up
  to 2^32-1 are accepted (`IntegerParameter.cpp`, C91).

Status per property: `MANIFEST.json`.
