{"id": "C01", "title": "Range queries are exact set queries", "statement": "For half-open integer ranges, contains(value), contains(range), overlaps(range) and intersect(range) answer exactly the corresponding question about the sets of integers the ranges denote (membership, inclusion, non-empty intersection, intersection).", "quantifier": "every pair of well-formed ranges (begin < end, any integers) and every integer", "why_tests_cant": "the input space is infinite (unbounded integers, ranks and numbers of ranges); a unit test fixes a handful of literals", "anchors": ["lib/Modeling/Range.cpp: Range::contains, overlaps, intersect", "include/marco/Modeling/Range.h"]}
{"id": "C02", "title": "Range merge and difference are exact", "statement": "If canBeMerged says two ranges can be merged then merge denotes exactly the union, and if it says no then no single range denotes the union; subtract returns non-empty, pairwise disjoint, ordered ranges whose union is exactly the set difference.", "quantifier": "every pair of well-formed ranges", "why_tests_cant": "the input space is infinite (unbounded integers, ranks and numbers of ranges); a unit test fixes a handful of literals", "anchors": ["lib/Modeling/Range.cpp: Range::canBeMerged, merge, subtract"]}
{"id": "C03", "title": "Multidimensional range queries are exact", "statement": "For n-dimensional boxes, contains(point), contains(box), overlaps(box) and intersect(box) agree with the sets of n-dimensional integer points the boxes denote.", "quantifier": "every rank, every pair of boxes of that rank, every point", "why_tests_cant": "the input space is infinite (unbounded integers, ranks and numbers of ranges); a unit test fixes a handful of literals", "anchors": ["lib/Modeling/MultidimensionalRange.cpp: contains, overlaps, intersect"]}
{"id": "C04", "title": "Box difference partitions the difference set", "statement": "Subtracting one box from another yields boxes that are pairwise disjoint, lie inside the first box, avoid the second, and together cover every point of the first box that is not in the second.", "quantifier": "every rank and every pair of boxes of the same rank", "why_tests_cant": "the input space is infinite (unbounded integers, ranks and numbers of ranges); a unit test fixes a handful of literals", "anchors": ["lib/Modeling/MultidimensionalRange.cpp: MultidimensionalRange::subtract"]}
{"id": "C05", "title": "Box merging is exact", "statement": "When two boxes are reported as mergeable along a dimension, merging them along it gives a box that contains exactly the points of the two boxes; two boxes whose union is a box and neither of which contains the other are reported mergeable.", "quantifier": "every rank and every pair of boxes of the same rank", "why_tests_cant": "the input space is infinite (unbounded integers, ranks and numbers of ranges); a unit test fixes a handful of literals", "anchors": ["lib/Modeling/MultidimensionalRange.cpp: canBeMerged, merge"]}
{"id": "C06", "title": "Iterating a box visits each point once, in lexicographic order", "statement": "Iterating a box yields every point of the box exactly once and in strictly increasing lexicographic order, and the number of visited points equals the size the box reports.", "quantifier": "every box of every rank", "why_tests_cant": "the input space is infinite (unbounded integers, ranks and numbers of ranges); a unit test fixes a handful of literals", "anchors": ["include/marco/Modeling/MultidimensionalRange.h: Iterator", "lib/Modeling/MultidimensionalRange.cpp: Iterator::fetchNext, flatSize", "lib/Modeling/Range.cpp: Range::Iterator"]}
{"id": "C07", "title": "Comparison and equality of points, ranges and boxes", "statement": "compare on ranges, points and boxes is a total order whose zero case is exactly equality; equality of boxes is equality of the sets of points they contain; comparing a range with an integer for equality tells whether the range contains exactly that value.", "quantifier": "every pair and triple of points, of boxes, and every range with every integer", "why_tests_cant": "the input space is infinite (unbounded integers, ranks and numbers of ranges); a unit test fixes a handful of literals", "anchors": ["lib/Modeling/Point.cpp: Point::compare", "lib/Modeling/Range.cpp: operator==, operator!=, compare", "lib/Modeling/MultidimensionalRange.cpp: operator==, compare"]}
{"id": "C08", "title": "Index sets add exactly what is inserted", "statement": "After adding a point, a box or another index set, the index set contains exactly the old points plus the added ones, whatever the sequence of additions that built it.", "quantifier": "every history of additions, every rank, every number of ranges (hence every R-tree shape)", "why_tests_cant": "it must hold after every finite history of operations; tests replay a few short histories", "anchors": ["lib/Modeling/IndexSet.cpp: IndexSet::insert, operator+=", "include/marco/Modeling/RTree.h: RTreeCRTP::insert, chooseLeaf, splitNode, adjustTree"]}
{"id": "C09", "title": "Index sets remove exactly what is removed", "statement": "After removing a point, a box or another index set, the index set contains exactly the old points minus the removed ones, whatever history built it, and the operation does not touch freed tree nodes.", "quantifier": "every history of additions and removals", "why_tests_cant": "it must hold after every finite history of operations; tests replay a few short histories", "anchors": ["lib/Modeling/IndexSet.cpp: IndexSet::remove, operator-=", "include/marco/Modeling/RTree.h: adjustTree, collapseNodeAndPropagate"]}
{"id": "C10", "title": "Building an index set from a list of ranges", "statement": "An index set built from a list of points or boxes contains exactly the points of the listed elements, and its stored ranges do not overlap.", "quantifier": "every list of points or boxes of the same rank, in any order, with any overlaps", "why_tests_cant": "the input space is infinite (unbounded integers, ranks and numbers of ranges); a unit test fixes a handful of literals", "anchors": ["lib/Modeling/IndexSet.cpp: IndexSet::setFromRanges, constructors, merge"]}
{"id": "C11", "title": "Index set containment and overlap queries are exact", "statement": "contains(point), contains(box), contains(index set), overlaps(box) and overlaps(index set) answer exactly the set question.", "quantifier": "every index set and every argument of the same rank", "why_tests_cant": "the input space is infinite (unbounded integers, ranks and numbers of ranges); a unit test fixes a handful of literals", "anchors": ["lib/Modeling/IndexSet.cpp: contains, overlaps"]}
{"id": "C12", "title": "Index set intersection is exact", "statement": "intersect with a box or with an index set contains exactly the common points.", "quantifier": "every pair of index sets / boxes of the same rank", "why_tests_cant": "the input space is infinite (unbounded integers, ranks and numbers of ranges); a unit test fixes a handful of literals", "anchors": ["lib/Modeling/IndexSet.cpp: intersect"]}
{"id": "C13", "title": "Index set complement is exact", "statement": "complement(box) contains exactly the points of the box that are not in the index set.", "quantifier": "every index set and every box of the same rank", "why_tests_cant": "the input space is infinite (unbounded integers, ranks and numbers of ranges); a unit test fixes a handful of literals", "anchors": ["lib/Modeling/IndexSet.cpp: complement"]}
{"id": "C14", "title": "Projection and product of index sets", "statement": "slice / takeFirstDimensions / takeLastDimensions / takeDimensions / dropFirstDimensions / dropLastDimensions contain exactly the projections of the points, and append / prepend contain exactly the concatenations of points of the two sets.", "quantifier": "every index set of every rank, every dimension subset", "why_tests_cant": "the input space is infinite (unbounded integers, ranks and numbers of ranges); a unit test fixes a handful of literals", "anchors": ["lib/Modeling/IndexSet.cpp: slice, takeDimensions, takeFirstDimensions, takeLastDimensions, dropFirstDimensions, dropLastDimensions, append, prepend"]}
{"id": "C15", "title": "An index set iterates each point once and reports the right size", "statement": "Iterating an index set yields every one of its points exactly once, and size() is the number of its points.", "quantifier": "every index set reachable through the public operations", "why_tests_cant": "it must hold after every finite history of operations; tests replay a few short histories", "anchors": ["lib/Modeling/IndexSet.cpp: size, PointIterator, RangeIterator"]}
{"id": "C16", "title": "Index set equality is set equality", "statement": "Two index sets compare equal exactly when they contain the same points, independently of how they were built.", "quantifier": "every pair of index sets, every construction history", "why_tests_cant": "it must hold after every finite history of operations; tests replay a few short histories", "anchors": ["include/marco/Modeling/RTree.h: RTreeCRTP::operator==", "lib/Modeling/IndexSet.cpp: compare, contains(const IndexSet&)"]}
{"id": "C17", "title": "Compact ranges represent the same set", "statement": "getCompactRanges returns pairwise disjoint ranges whose union is exactly the index set.", "quantifier": "every index set", "why_tests_cant": "the input space is infinite (unbounded integers, ranks and numbers of ranges); a unit test fixes a handful of literals", "anchors": ["lib/Modeling/IndexSet.cpp: getCompactRanges, splitRangesToMinGrid"]}
{"id": "C18", "title": "The spatial index stays well formed", "statement": "After any sequence of insertions and removals, all leaves are at the same depth, every node's bounding box is the minimum one of its content, and node fan-outs stay within the configured bounds.", "quantifier": "every history of insertions and removals and every bulk load", "why_tests_cant": "it must hold after every finite history of operations; tests replay a few short histories", "anchors": ["include/marco/Modeling/RTree.h: isValid, insert, remove, splitNode, setFromObjects"]}
{"id": "C19", "title": "Overlap search in the spatial index is complete and sound", "statement": "Walking the objects that overlap a box visits exactly the stored objects whose box overlaps it, each exactly once.", "quantifier": "every tree reachable by any history and every query box", "why_tests_cant": "it must hold after every finite history of operations; tests replay a few short histories", "anchors": ["include/marco/Modeling/RTree.h: walkOverlappingObjects, walkOverlappingLeafNodes"]}
{"id": "C20", "title": "Mapping an index set through an access function gives the image", "statement": "For every access function class, map(index set) contains exactly the points reached by mapping each point of the index set.", "quantifier": "every access function of every class and every index set of matching rank", "why_tests_cant": "the input space is infinite (unbounded integers, ranks and numbers of ranges); a unit test fixes a handful of literals", "anchors": ["lib/Modeling/AccessFunction*.cpp: map", "lib/Modeling/DimensionAccess*.cpp: map"]}
{"id": "C21", "title": "Inverting an access function round-trips", "statement": "If an access function has an inverse, mapping a point and then mapping the result through the inverse gives the point back, and vice versa; functions reported invertible have an inverse.", "quantifier": "every access function and every point", "why_tests_cant": "the input space is infinite (unbounded integers, ranks and numbers of ranges); a unit test fixes a handful of literals", "anchors": ["lib/Modeling/AccessFunctionRotoTranslation.cpp: isInvertible, inverse", "lib/Modeling/AccessFunction.cpp"]}
{"id": "C22", "title": "Inverse image of accessed indices", "statement": "inverseMap(accessed, parent) returns exactly the iterations in parent that access some index in accessed.", "quantifier": "every access function, every accessed index set, every parent index set", "why_tests_cant": "the input space is infinite (unbounded integers, ranks and numbers of ranges); a unit test fixes a handful of literals", "anchors": ["lib/Modeling/AccessFunction*.cpp: inverseMap"]}
{"id": "C23", "title": "Combining access functions is function composition", "statement": "f.combine(g) maps every point to what g maps the result of f to.", "quantifier": "every pair of composable access functions and every point", "why_tests_cant": "the input space is infinite (unbounded integers, ranks and numbers of ranges); a unit test fixes a handful of literals", "anchors": ["lib/Modeling/AccessFunction.cpp: combine", "lib/Modeling/AccessFunctionAffineMap.cpp: combine"]}
{"id": "C24", "title": "Equal access functions behave equally", "statement": "If two access functions compare equal they have the same number of results and map every point to the same indices.", "quantifier": "every pair of access functions", "why_tests_cant": "the input space is infinite (unbounded integers, ranks and numbers of ranges); a unit test fixes a handful of literals", "anchors": ["lib/Modeling/AccessFunctionGeneric.cpp: operator==", "lib/Modeling/AccessFunction*.cpp: operator=="]}
{"id": "C25", "title": "Incidence matrices store what is set", "statement": "apply(f), set(e,v) and unset(e,v) on a compressed incidence matrix change exactly the entries they denote, and get(e,v) reports the current value of each entry, whatever the history.", "quantifier": "every history of apply/set/unset on every pair of equation and variable spaces", "why_tests_cant": "it must hold after every finite history of operations; tests replay a few short histories", "anchors": ["lib/Modeling/MCIM.cpp: apply, get, set, unset", "lib/Modeling/MCIMGroup*.cpp"]}
{"id": "C26", "title": "Incidence matrix sum and difference are entrywise", "statement": "a += b sets exactly the entries set in a or in b; a -= b keeps exactly the entries of a that are not set in b.", "quantifier": "every pair of matrices on the same spaces", "why_tests_cant": "the input space is infinite (unbounded integers, ranks and numbers of ranges); a unit test fixes a handful of literals", "anchors": ["lib/Modeling/MCIM.cpp: operator+=, operator-="]}
{"id": "C27", "title": "Filtering and flattening an incidence matrix", "statement": "filterRows/filterColumns keep exactly the entries whose equation/variable index is in the filter; flattenRows/flattenColumns return exactly the variable/equation indices with at least one entry set.", "quantifier": "every matrix and every filter", "why_tests_cant": "the input space is infinite (unbounded integers, ranks and numbers of ranges); a unit test fixes a handful of literals", "anchors": ["lib/Modeling/MCIM.cpp: filterRows, filterColumns, flattenRows, flattenColumns"]}
{"id": "C28", "title": "Local matching decompositions are valid and complete", "statement": "Splitting an incidence matrix into local matching options yields matrices with at most one entry per row and per column, each contained in the original, and every entry of the original appears in some option.", "quantifier": "every incidence matrix", "why_tests_cant": "the input space is infinite (unbounded integers, ranks and numbers of ranges); a unit test fixes a handful of literals", "anchors": ["lib/Modeling/MCIM.cpp: splitGroups", "lib/Modeling/LocalMatchingSolutions*.cpp"]}
{"id": "C29", "title": "Matched and unmatched indices partition a vertex", "statement": "For every variable and equation, the matched and unmatched index sets are disjoint and together are exactly its matchable indices, after any sequence of match additions and removals.", "quantifier": "every sequence of addMatch/removeMatch/setMatch operations", "why_tests_cant": "it must hold after every finite history of operations; tests replay a few short histories", "anchors": ["lib/Modeling/Matching.cpp: Matchable", "include/marco/Modeling/Matching.h: VariableVertex, EquationVertex, GraphEdge"]}
{"id": "C30", "title": "Augmenting along a path keeps the matching valid and grows it", "statement": "Applying an augmenting path to a valid matching leaves a valid matching (each scalar variable and each scalar equation matched at most once, only along incidences) that matches strictly more scalar equations and keeps all previously matched vertices matched.", "quantifier": "every matching and every augmenting path, of any length", "why_tests_cant": "it must hold after every finite history of operations; tests replay a few short histories", "anchors": ["include/marco/Modeling/Matching.h: applyPath, AugmentingPath"]}
{"id": "C31", "title": "Leaf simplification does not lose solutions", "statement": "Matching a vertex that has a single remaining incident option before running the general algorithm never makes a matchable system unmatchable.", "quantifier": "every bipartite system, every sequence of forced matches", "why_tests_cant": "it must hold after every finite history of operations; tests replay a few short histories", "anchors": ["include/marco/Modeling/Matching.h: matchLeafNodes"]}
{"id": "C32", "title": "A successful match is a perfect matching", "statement": "When match() reports success every scalar variable and equation is matched exactly once, along an incidence of the system.", "quantifier": "every system, every schedule of the parallel loops", "why_tests_cant": "it must hold after every finite history of operations; tests replay a few short histories", "anchors": ["include/marco/Modeling/Matching.h: match, applyHK, allNodesMatched"]}
{"id": "C33", "title": "Dependency edges are exactly the read-after-write pairs", "statement": "The equation dependency graph has an edge from equation a to equation b exactly when a reads an index that b writes.", "quantifier": "every set of equations, every access functions, every iteration space, every interleaving of the parallel insertion", "why_tests_cant": "it must hold after every finite history of operations; tests replay a few short histories", "anchors": ["include/marco/Modeling/ArrayEquationsDependencyGraph.h: addEquations, addEdges", "include/marco/Modeling/ScalarEquationsDependencyGraph.h: addEdges"]}
{"id": "C34", "title": "Scheduling visits dependencies first", "statement": "In the produced schedule each component appears exactly once and after every component it depends on (for acyclic dependencies).", "quantifier": "every finite acyclic dependency graph", "why_tests_cant": "the input space is infinite (unbounded integers, ranks and numbers of ranges); a unit test fixes a handful of literals", "anchors": ["include/marco/Modeling/SCCsDependencyGraph.h: postOrder", "include/marco/Modeling/Scheduling.h: schedule"]}
{"id": "C35", "title": "Iteration directions respect self-dependencies", "statement": "If an equation that reads its own variable is scheduled as a loop with directions, executing the loop nest in those directions never reads an element before the iteration that writes it; dimensions marked as order-independent can be executed in any order or in parallel.", "quantifier": "every rotation-translation write access, every set of read accesses, every iteration space", "why_tests_cant": "the input space is infinite (unbounded integers, ranks and numbers of ranges); a unit test fixes a handful of literals", "anchors": ["include/marco/Modeling/Scheduling.h: getSchedulingDirections, mergeDirectionPossibilities"]}
{"id": "C36", "title": "Generated loops execute exactly the scheduled iterations", "statement": "The code generated for a scheduled equation executes each iteration of the index space exactly once, in increasing order for forward dimensions and decreasing order for backward dimensions.", "quantifier": "every box of iterations and every list of directions", "why_tests_cant": "the input space is infinite (unbounded integers, ranks and numbers of ranges); a unit test fixes a handful of literals", "anchors": ["lib/Dialect/BaseModelica/Transforms/EquationExplicitation.cpp: createEquationFunction", "lib/Codegen/Conversion/BaseModelicaToFunc/BaseModelicaToFunc.cpp: EquationCallOpLowering"]}
{"id": "C37", "title": "Parallel schedule groups are dependency-free and complete", "statement": "Parallelizing schedule blocks keeps every block exactly once, never puts a block in a group that precedes or equals the group of a block it reads from, and never exceeds the configured maximum group size.", "quantifier": "every list of blocks, every read/write sets, every limit", "why_tests_cant": "the input space is infinite (unbounded integers, ranks and numbers of ranges); a unit test fixes a handful of literals", "anchors": ["lib/Dialect/BaseModelica/Transforms/ScheduleParallelization.cpp: parallelizeBlocks"]}
{"id": "C38", "title": "Looking up writers of a variable region", "statement": "The writers map returns exactly the entities recorded as writing some index of the requested region of the variable, each once.", "quantifier": "every history of recorded writes and every query", "why_tests_cant": "it must hold after every finite history of operations; tests replay a few short histories", "anchors": ["include/marco/Dialect/BaseModelica/IR/Dialect.h: WritesMap::getWrites, addWrite"]}
{"id": "C39", "title": "Inverting an operation solves for the operand", "statement": "The value produced when an arithmetic operation is inverted with respect to one operand is the operand: the rewritten equation is satisfied exactly when the original one is (for values where the operation is defined and, for products and quotients, the divisor is non-zero).", "quantifier": "every real valuation and every operation and operand position", "why_tests_cant": "the input space is infinite (unbounded integers, ranks and numbers of ranges); a unit test fixes a handful of literals", "anchors": ["lib/Dialect/BaseModelica/Transforms/InvertibleOpInterfaceImpl.cpp", "lib/Dialect/BaseModelica/IR/Ops.cpp: EquationTemplateOp::explicitate, explicitateLeaf"]}
{"id": "C40", "title": "Distributing negation, product and quotient preserves values", "statement": "Rewriting an expression by distributing negations, multiplications and divisions over sums, products and quotients does not change its value.", "quantifier": "every expression tree, of any size, and every real valuation", "why_tests_cant": "the input space is infinite (unbounded integers, ranks and numbers of ranges); a unit test fixes a handful of literals", "anchors": ["lib/Dialect/BaseModelica/IR/Ops.cpp: distribute, distributeNegateOp, distributeMulOp, distributeDivOp, removeSubtractions, distributeMulAndDivOps, pushNegateOps"]}
{"id": "C41", "title": "Explicitation by grouping preserves the equation", "statement": "When an equation with several occurrences of the matched variable is made explicit by collecting linear factors, the explicit equation has the same solutions as the original one whenever the collected coefficient is non-zero.", "quantifier": "every equation tree and every real valuation", "why_tests_cant": "the input space is infinite (unbounded integers, ranks and numbers of ranges); a unit test fixes a handful of literals", "anchors": ["lib/Dialect/BaseModelica/IR/Ops.cpp: EquationTemplateOp::groupLeftHandSide, getMultiplyingFactor, collectSummedValues"]}
{"id": "C42", "title": "Generated derivatives are mathematical derivatives", "statement": "The expression generated as derivative of an expression evaluates to the derivative (in the sense of real analysis) of the expression's value, at every point where the expression is differentiable.", "quantifier": "every expression over the supported operators and every differentiable valuation of its variables", "why_tests_cant": "the input space is infinite (unbounded integers, ranks and numbers of ranges); a unit test fixes a handful of literals", "anchors": ["lib/Dialect/BaseModelica/Transforms/DerivableOpInterfaceImpl.cpp"]}
{"id": "C43", "title": "Numeric literals denote their decimal value", "statement": "Feeding the digits of an integer or real literal to the literal builders yields the number the literal denotes.", "quantifier": "every digit string (integer part, fraction part, signed exponent)", "why_tests_cant": "the input space is infinite (unbounded integers, ranks and numbers of ranges); a unit test fixes a handful of literals", "anchors": ["include/marco/Lexer/IntegerLexer.h", "include/marco/Lexer/FloatLexer.h"]}
{"id": "C44", "title": "Variable filter text round-trips", "statement": "Printing a variable filter (list of names, array slices, derivatives, regular expressions) in the command line syntax and parsing it back yields the same filter, and lexing never loses or invents tokens.", "quantifier": "every filter specification", "why_tests_cant": "the input space is infinite (unbounded integers, ranks and numbers of ranges); a unit test fixes a handful of literals", "anchors": ["lib/VariableFilter/LexerStateMachine.cpp", "lib/VariableFilter/Parser.cpp"]}
{"id": "C45", "title": "Variable filter decides visibility as specified", "statement": "A variable is shown exactly when the filter is disabled or some rule names it or its regular expression matches it, and the shown array elements are exactly those in some listed slice.", "quantifier": "every filter, variable name and rank", "why_tests_cant": "the input space is infinite (unbounded integers, ranks and numbers of ranges); a unit test fixes a handful of literals", "anchors": ["lib/VariableFilter/VariableFilter.cpp: getVariableInfo, getVariableDerInfo", "lib/VariableFilter/Tracker/Filter files"]}
{"id": "C46", "title": "Constant folding of ranges", "statement": "Adding or subtracting a constant to a constant integer range yields the range of shifted values, and the reported number of elements of a range is the number of values it enumerates.", "quantifier": "every integer range (lower, upper, step) and constant", "why_tests_cant": "the input space is infinite (unbounded integers, ranks and numbers of ranges); a unit test fixes a handful of literals", "anchors": ["lib/Dialect/BaseModelica/IR/Ops.cpp: AddOp::fold, SubOp::fold", "lib/Dialect/BaseModelica/IR/Attributes.cpp: range attributes"]}
{"id": "C47", "title": "Derivative bookkeeping is consistent", "statement": "After any sequence of setDerivative calls that associate fresh derivatives to variables, looking up the derivative of a variable and then the variable of that derivative gives the variable back.", "quantifier": "every sequence of setDerivative calls", "why_tests_cant": "it must hold after every finite history of operations; tests replay a few short histories", "anchors": ["lib/Dialect/BaseModelica/IR/DerivativesMap.cpp: setDerivative, getDerivative, getDerivedVariable"]}
{"id": "C48", "title": "Structural differentiation only grows, never repeats", "statement": "During index reduction an index of a variable or equation is differentiated at most once.", "quantifier": "every sequence of visits, every index sets", "why_tests_cant": "it must hold after every finite history of operations; tests replay a few short histories", "anchors": ["include/marco/Modeling/Pantelides.h: differentiateVariable, differentiateEquation, addVariableDerivative"]}
{"id": "C49", "title": "A box equals a point exactly when it contains only that point", "statement": "Comparing a multidimensional range with a point for equality answers whether the box contains exactly that point.", "quantifier": "every box and every point of every rank", "why_tests_cant": "the wrong answers need a box that starts or ends on the point in every dimension without being the point; a test suite that compares unit boxes, or boxes disjoint from the point, never meets them", "anchors": ["lib/Modeling/MultidimensionalRange.cpp: MultidimensionalRange::operator==(const Point &)", "lib/Modeling/Range.cpp: Range::operator!=(data_type)"]}
{"id": "C50", "title": "Equal index sets hash equally", "statement": "Two index sets that contain the same points have the same hash value, so that hashed containers keyed by index sets find them.", "quantifier": "every pair of index sets, every construction history", "why_tests_cant": "it must hold for every pair of representations of the same set; tests compare a few", "anchors": ["lib/Modeling/IndexSet.cpp: hash_value(const IndexSet&), DenseMapInfo<IndexSet>::getHashValue"]}
{"id": "C51", "title": "The spatial index stores exactly the inserted objects", "statement": "Inserting an object stores exactly one more object; removing an object removes all the stored objects equal to it and no other.", "quantifier": "every history of bulk loads, insertions and removals, every object type", "why_tests_cant": "it must hold after every finite history of operations; tests replay a few short histories", "anchors": ["include/marco/Modeling/RTree.h: RTreeCRTP::insert(T), remove(const T&), adjustTree, collapseNodeAndPropagate"]}
{"id": "C52", "title": "Building an access function from an affine map keeps its meaning", "statement": "Mapping a point through the access function built from an affine map, or from dimension accesses, gives exactly the element that the affine map (the accesses) denotes at this point.", "quantifier": "every affine map, every list of dimension accesses, every point with as many coordinates as dimensions", "why_tests_cant": "the meaning must be kept for every expression and every point; tests evaluate a few maps at a few points", "anchors": ["lib/Modeling/AccessFunction.cpp: AccessFunction::build, fromExtendedMap", "lib/Modeling/DimensionAccess.cpp: getDimensionAccessFromExtendedMap", "lib/Modeling/DimensionAccessDiv.cpp: DimensionAccessDiv::map"]}
{"id": "C53", "title": "The order of index sets is a total order on the sets", "statement": "IndexSet::compare is zero exactly on equal sets, changes its sign when the arguments are swapped and is transitive.", "quantifier": "every triple of index sets, every construction history", "why_tests_cant": "order laws range over all triples of sets and over all their representations", "anchors": ["lib/Modeling/IndexSet.cpp: IndexSet::compare"]}
{"id": "C54", "title": "Restricting an incidence matrix to other spaces keeps exactly the entries inside them", "statement": "For every incidence matrix and all equation and variable index sets, setEquationSpace, setVariableSpace and withSpace succeed and the result has the given spaces and exactly the entries of the matrix whose equation and variable are in the new spaces.", "quantifier": "all matrices, whatever access functions and single entries they hold, all new equation and variable spaces (smaller, larger or overlapping)", "why_tests_cant": "The entries kept depend on the access functions, on the boxes the equations are stored in and on how the new space overlaps the old one; the repository's tests check a few fixed matrices.", "anchors": ["lib/Modeling/MCIM.cpp: MCIM::withSpace, setEquationSpace, setVariableSpace", "include/marco/Modeling/MCIM.h"]}
{"id": "C55", "title": "Incidence matrices are equal exactly when they have the same spaces and the same entries", "statement": "For any two incidence matrices operator== terminates without error and is true exactly when the equation spaces are equal, the variable spaces are equal and every (equation, variable) pair is an entry of one exactly when it is an entry of the other; operator!= is its negation.", "quantifier": "all pairs of matrices, in any internal representation", "why_tests_cant": "The same entries have unboundedly many representations as groups of access functions and single points.", "anchors": ["lib/Modeling/MCIM.cpp: MCIM::operator==, operator!=, MCIM::Impl::operator=="]}
{"id": "C56", "title": "Code created for an affine access computes the accessed index", "statement": "When operations are created for an affine expression over the induction variables, evaluating the operations at any iteration gives the value of the affine expression at this iteration.", "quantifier": "for all affine expressions, iterations and induction values (also negative ones)", "why_tests_cant": "expressions nest without bound and the rounding of divisions differs only for particular signs", "anchors": ["lib/Dialect/BaseModelica/IR/Dialect.cpp: materializeAffineMap, materializeAffineExpr", "lib/Codegen/Conversion/BaseModelicaToArith/BaseModelicaToArith.cpp: DivOpLowering"]}
{"id": "C57", "title": "Access functions extracted from subscripts reach the denoted elements", "statement": "The dimension access extracted from the operations that define a subscript reaches, from every iteration, exactly the elements the subscript denotes.", "quantifier": "for all trees of constants, constant ranges, induction variables, negations, sums, differences, products and quotients, and all iterations", "why_tests_cant": "all later analyses (matching, scheduling) rely on it for arbitrary index arithmetic; a test fixes one tree and one iteration space", "anchors": ["lib/Dialect/BaseModelica/IR/Dialect.cpp: getDimensionAccess"]}
{"id": "C58", "title": "The lexer gives back the tokens that are written", "statement": "Lexing a text that writes a sequence of identifiers, keywords, numbers, strings and symbols, separated by white space and comments where needed, gives exactly these tokens followed by the end of file; every text is lexed to its end, and the end of file comes once, last.", "quantifier": "every sequence of tokens, every choice of spaces and comments between them; every text for termination", "why_tests_cant": "the input space is infinite (texts of any length, any characters in comments and strings); a unit test fixes a handful of texts", "anchors": ["lib/Parser/BaseModelica/StateMachine.cpp: LexerStateMachine::step, scan*", "include/marco/Lexer/Lexer.h: Lexer::scan"]}
{"id": "C59", "title": "The derivatives map survives being stored", "statement": "Storing a derivatives map as an attribute, as bytecode or as text and reading it back gives a map equal to the first, and two maps are equal exactly when every lookup gives the same answer in both.", "quantifier": "every history of calls building the map, every order in which the text lists the entries, every bytecode that follows", "why_tests_cant": "the maps are built by unbounded histories of calls", "anchors": ["lib/Dialect/BaseModelica/IR/DerivativesMap.cpp: asAttribute, setFromAttr, readFromMlirBytecode, writeToMlirBytecode, parse, print, operator==, hash"]}
{"id": "C60", "title": "Materializing derivatives records exactly the differentiated indices", "statement": "The derived indices of a variable are exactly those given to it since they were last replaced, whatever order concurrent threads add them in; materializing derivatives keeps the existing derivatives, gives every differentiated variable a derivative variable of its own and adds exactly the indices at which it is differentiated; following derivatives, or derived variables, from any variable ends, and one walk is the reverse of the other.", "quantifier": "every history of calls, every thread schedule, every set of uses of the derivative operator, every number of index reduction steps", "why_tests_cant": "it ranges over all histories and thread schedules", "anchors": ["lib/Dialect/BaseModelica/IR/DerivativesMap.cpp: addDerivedIndices, setDerivedIndices, getDerivedIndices, LockedDerivativesMap", "lib/Dialect/BaseModelica/Transforms/DerivativesMaterialization.cpp: processModelOp, createDerivativeVariables", "lib/Dialect/BaseModelica/Transforms/Pantelides.cpp: differentiateVariable", "lib/Dialect/BaseModelica/Transforms/VariablesPruning.cpp: walkDerivedVariables, walkDerivativeVariables"]}
{"id": "C61", "title": "Index reduction calls its callbacks soundly and trips no assertion", "statement": "Once the initial matching has returned, the index reduction ends no round in an assertion failure and never uses a variable that it has removed; each call of a differentiation callback is about a variable or equation that the client has declared or that an earlier answer has introduced, and hands over a non-empty set of indices that the variable or equation has at that time.", "quantifier": "every sequence of declarations, every pair of (stateful) callbacks that answer with at least an index, every sound local solver, every order in which the parallel loops deliver results, every number of rounds", "why_tests_cant": "the sets handed over are the result of the whole history of searches, augmentations, removals and additions, which depends on the answers of the callbacks and on the thread schedule", "anchors": ["include/marco/Modeling/Pantelides.h: run, differentiateVariables, differentiateVariable, differentiateEquations, differentiateEquation, addVariableDerivative, addEquationDerivative", "include/marco/Modeling/Matching.h: removeVariable, applyPath, expandFrontier"]}
{"id": "C62", "title": "Index reduction ends", "statement": "The index reduction ends for every system; when the matching succeeds it ends at once and calls no callback.", "quantifier": "every system of declared variables and equations, every callback", "why_tests_cant": "termination over all systems; a test can only show systems on which it ends", "anchors": ["include/marco/Modeling/Pantelides.h: run"]}
{"id": "C63", "title": "The derivative of an equation has the indices that were differentiated", "statement": "After the callback has differentiated some indices of an equation, the equation that it answers with takes part in the reduction with the indices of the answer, whether or not it was known before.", "quantifier": "every run of the index reduction, every call of the equation callback in it", "why_tests_cant": "the second differentiation of the same equation, in other indices, depends on the order in which augmenting paths are found over the whole run", "anchors": ["include/marco/Modeling/Pantelides.h: differentiateEquation, addEquationDerivative"]}
{"id": "C64", "title": "Only needed variables are differentiated", "statement": "Each scalar variable that the index reduction differentiates appears in a scalar equation that it differentiates.", "quantifier": "every run of the index reduction, every scalar variable handed to the variable callback", "why_tests_cant": "the visited sets are the result of searches over index sets of arbitrary size and shape", "anchors": ["include/marco/Modeling/Matching.h: expandFrontier, Visits", "include/marco/Modeling/Pantelides.h: differentiateVariables"]}
{"id": "C65", "title": "The reduced system can be solved", "statement": "When the index reduction ends, the equations that have not been differentiated can each be solved for a scalar variable of their own, among the variables left; in particular each declared equation, or a derivative of it, is matched.", "quantifier": "every system of declared variables and equations whose equations can be assigned to distinct unknowns, every run of the index reduction on it that ends", "why_tests_cant": "it is about the fixed point of a search over systems of any size and index; chains of a given length may be reduced while longer ones are not", "anchors": ["include/marco/Modeling/Pantelides.h: run, differentiateVisitedEquations, getEquationDerivative", "lib/Dialect/BaseModelica/Transforms/Pantelides.cpp"]}
{"id": "C66", "title": "Every expression of the language is read with its own tree", "statement": "The parser reads each expression of the language to its end, whatever follows it, and the tree it builds is the one of the language: the operators bind in the order of the grammar, those of equal strength group from the left, arguments, subscripts, named arguments and iterators are in their places. No text has two trees.", "quantifier": "every derivation of the expression grammar of any size and depth, every sequence of tokens after it that does not continue it", "why_tests_cant": "the expressions and what may follow them are unboundedly many; precedence mistakes show up only on particular combinations", "anchors": ["lib/Parser/BaseModelica/Parser.cpp: parseExpression, parseSimpleExpression, parseLogicalExpression, parseArithmeticExpression, parseTerm, parseFactor, parsePrimary, parseFunctionCallArgs, parseArraySubscripts"]}
{"id": "C67", "title": "Reading an expression ends with a tree or a diagnostic", "statement": "On every sequence of tokens the parser of expressions ends, consumes at least one token when it succeeds, and otherwise reports a diagnostic.", "quantifier": "every finite sequence of tokens, well formed or not", "why_tests_cant": "malformed inputs are unboundedly many; a loop or a crash shows up on one of them", "anchors": ["lib/Parser/BaseModelica/Parser.cpp: parseExpression, parsePrimary, parseOutputExpressionList"]}
{"id": "C68", "title": "Only expressions of the language are read", "statement": "When the parser of expressions succeeds, the tokens it has consumed are an expression of the language whose tree is the one it gives, and the others are left in order.", "quantifier": "every finite sequence of tokens", "why_tests_cant": "it is about what is not accepted, for all inputs", "anchors": ["lib/Parser/BaseModelica/Parser.cpp: parseExpression, parseFactor, parseOutputExpressionList, parsePrimary"]}
{"id": "C69", "title": "Exactly the equations of the language are read, with their trees", "statement": "The parser reads each equation of the language - equality with an optional comment, if with elseif and else, for, when with elsewhen - to its end and builds its tree, with every nested equation in its branch and in order; no text has two trees, and what it accepts is an equation of the language.", "quantifier": "every derivation of the equation grammar, nested to any depth with blocks of any length; every sequence of tokens for the converse", "why_tests_cant": "equations nest without bound; a branch that is lost or attached to another condition shows up only for some shapes", "anchors": ["lib/Parser/BaseModelica/Parser.cpp: parseEquation, parseIfEquation, parseForEquation, parseWhenEquation", "lib/AST/BaseModelica/IfEquation.cpp: setElseIfEquations", "lib/AST/BaseModelica/WhenEquation.cpp: setElseWhenEquations"]}
{"id": "C70", "title": "Exactly the statements of the language are read, with their trees", "statement": "The parser reads each statement of the language - assignments to one or several destinations, calls, break, return, if with elseif and else, for, while, when - to its end and builds its tree, with every nested statement in its branch and in order; no text has two trees, and what it accepts is a statement of the language.", "quantifier": "every derivation of the statement grammar, nested to any depth with blocks of any length; every sequence of tokens for the converse", "why_tests_cant": "statements nest without bound; a branch that is lost or attached to another condition shows up only for some shapes", "anchors": ["lib/Parser/BaseModelica/Parser.cpp: parseStatement, parseIfStatement, parseForStatement, parseWhileStatement, parseWhenStatement", "lib/AST/BaseModelica/AssignmentStatement.cpp: setDestinations"]}
{"id": "C71", "title": "Reading equations and statements ends with a tree or a diagnostic", "statement": "On every sequence of tokens the parsers of equations and of statements end, consume at least one token when they succeed, and otherwise report a diagnostic.", "quantifier": "every finite sequence of tokens, well formed or not", "why_tests_cant": "malformed inputs are unboundedly many; a loop or a crash shows up on one of them", "anchors": ["lib/Parser/BaseModelica/Parser.cpp: parseEquation, parseStatement, parseIfStatement, parsePrimary"]}
{"id": "C72", "title": "The classes of the language are read with their trees", "statement": "The parser reads each class of a Base Modelica file - model, record, package, function, with comments, components and their modifications, visibility, nested classes, equation and algorithm sections, external clause and annotation - to its end and builds its tree: every component with its type, dimensions, variability, causality, visibility and modification, every section with its items, every nested class in its parent, all in the order of the text. No text has two trees, and a file is the list of the trees of its classes.", "quantifier": "every derivation of the class grammar, nested to any depth with lists of any length; every file of such classes", "why_tests_cant": "classes nest and lists grow without bound; a component that gets the visibility of another list, or a section that is dropped, shows up only for some orders", "anchors": ["lib/Parser/BaseModelica/Parser.cpp: parseRoot, parseClassDefinition, parseElementList, parseElement, parseEquationSection, parseAlgorithmSection, parseModification, parseAnnotation, parseExternalFunctionCall, parseVariableType, parseArrayDimension"]}
{"id": "C73", "title": "Reading classes ends with a tree or a diagnostic", "statement": "On every sequence of tokens the parser of classes and of files ends, consumes at least one token when it succeeds, and otherwise reports a diagnostic.", "quantifier": "every finite sequence of tokens, well formed or not", "why_tests_cant": "malformed inputs are unboundedly many; a loop or a crash shows up on one of them", "anchors": ["lib/Parser/BaseModelica/Parser.cpp: parseClassDefinition, parseElementList, parseVariableType, parseArgument", "include/marco/Parser/BaseModelica/Parser.h: EXPECT, TRY"]}
{"id": "C74", "title": "Only classes of the language are read", "statement": "When the parser returns a class, the tokens that it consumed are a class of the language and the tree is the one that the grammar gives; when it returns a file, the whole text up to the end of the file is a list of such classes.", "quantifier": "every finite sequence of tokens that is accepted", "why_tests_cant": "the accepted texts are unboundedly many; a text outside the language that is accepted is translated to something its author did not write", "anchors": ["lib/Parser/BaseModelica/Parser.cpp: parseRoot, parseClassDefinition, parseExternalFunctionCall"]}
{"id": "C75", "title": "A simulation step is a step of the chosen Runge-Kutta method", "statement": "With the Runge-Kutta solver, the values of the state variables after one step are the ones that the chosen method gives for the differential equation of the model, from the values before the step, whatever order the generated equations are run in.", "quantifier": "every model, every method, every step size and time, every initial memory, every order of execution allowed by the dependencies", "why_tests_cant": "models, values and orders of execution are unboundedly many; a stage that reads a stale value lowers the accuracy without any visible failure", "anchors": ["lib/Dialect/BaseModelica/Transforms/RungeKutta.cpp: createTryStepFunction, createSlopeEquation, createFutureStateValueEquation, createEquationFunction"]}
{"id": "C76", "title": "The Runge-Kutta methods are the published ones and have their orders", "statement": "Every name of a variant selects the published method of that name; it satisfies all the order conditions up to its order, and so does the embedded method; right-hand sides that are polynomials in the time of a lower degree are integrated exactly.", "quantifier": "every variant, every rooted tree up to the order, every polynomial and linear right-hand side, every step", "why_tests_cant": "an order is a statement about all the right-hand sides; a wrong digit of a coefficient gives plausible trajectories", "anchors": ["lib/Dialect/BaseModelica/Transforms/RungeKutta.cpp: ButcherTableau, solveMainModel"]}
{"id": "C77", "title": "The error estimate bounds the difference of the two methods", "statement": "The estimate used by the adaptive step is the largest distance, over all the scalars of the states, between the value of the method and the value of its embedded method; it is zero for methods without one.", "quantifier": "every model, every embedded pair, every memory", "why_tests_cant": "memories and models are unboundedly many; an underestimated error shows up only on the models where the sign is unlucky", "anchors": ["lib/Dialect/BaseModelica/Transforms/RungeKutta.cpp: createErrorEquation, createEstimateErrorFunction"]}
{"id": "C78", "title": "Accepting a step installs the new values consistently", "statement": "Accepting a step gives every scalar of the states and derivatives its new value and changes nothing else; afterwards the update of the other variables runs all the equations that give no derivative, in order, and the derivatives satisfy their equations.", "quantifier": "every model, every memory", "why_tests_cant": "the property speaks of every scalar of every model", "anchors": ["lib/Dialect/BaseModelica/Transforms/RungeKutta.cpp: createAcceptStepFunction, createUpdateNonStateVariablesFunction"]}
{"id": "C79", "title": "Forward Euler advances each state by the step times its derivative", "statement": "With the forward Euler solver every scalar of a state becomes its value plus the step times its derivative, all with the values from before the update, and no other variable changes; this is a step of the explicit Euler method for the whole system.", "quantifier": "every model, coupled or not, every step size, every assignment of values, both ways of updating arrays", "why_tests_cant": "models and values are unboundedly many; the order in which the states are updated matters only for some of them", "anchors": ["lib/Dialect/BaseModelica/Transforms/EulerForward.cpp: createUpdateStateVariablesFunction, createRangedStateVariableUpdateBlocks, createMonolithicStateVariableUpdateBlock"]}
{"id": "C80", "title": "The derivative after a step is computed at the time after the step", "statement": "In the equations that compute the derivatives after a step, every occurrence of the time stands for the time plus the step, and the rest of the equation is unchanged.", "quantifier": "every body of an equation, with any number of occurrences of the time", "why_tests_cant": "the rewriting has to be right for every body", "anchors": ["lib/Dialect/BaseModelica/Transforms/RungeKutta.cpp: createTryStepFunction"]}
{"id": "C81", "title": "Operations on constants are evaluated to their value", "statement": "When the compiler replaces an operation on constant scalars by a constant, that constant is the value the language gives to the operation: Integers are exact, Reals are rounded as IEEE binary64, mixed operands are converted to Real.", "quantifier": "every operator, every pair of constants", "why_tests_cant": "the constants range over all 64-bit integers and all doubles, with NaN, infinities and signed zeros", "anchors": ["lib/Dialect/BaseModelica/IR/Ops.cpp: NegateOp::fold, AddOp::fold, SubOp::fold, MulOp::fold, DivOp::fold, PowOp::fold, EqOp::fold ... OrOp::fold, CastOp::fold"]}
{"id": "C82", "title": "The code generated for scalar arithmetic computes the value of the expression", "statement": "For a well typed expression of scalars the compiler generates code that passes the verifier and that, run with the values of the variables, ends with the value the language gives to the expression.", "quantifier": "every expression, every assignment of values to its variables", "why_tests_cant": "expressions nest without bound and mix types", "anchors": ["lib/Codegen/Conversion/BaseModelicaToArith/BaseModelicaToArith.cpp: CastOpLowering, AddOpLowering, SubOpLowering, MulOpLowering, DivOpLowering, SelectOpLowering, comparison and logic lowerings"]}
{"id": "C83", "title": "Compile-time and run-time evaluation agree", "statement": "An operation on constants has the same value whether the compiler evaluates it or the generated code does.", "quantifier": "every operator and conversion, every constants", "why_tests_cant": "the two implementations are different code over all doubles and integers", "anchors": ["lib/Dialect/BaseModelica/IR/Ops.cpp: fold methods", "lib/Codegen/Conversion/BaseModelicaToArith/BaseModelicaToArith.cpp"]}
{"id": "C84", "title": "Folding and simplification keep the value of an expression", "statement": "Any sequence of foldings and simplifications (x + 0, 1 * x, ...), at any places of an expression, leaves an expression of the same type with the same value.", "quantifier": "every expression, every sequence of rewrites, every values of the variables", "why_tests_cant": "the order of the rewrites is chosen by the rewriting driver", "anchors": ["lib/Dialect/BaseModelica/IR/Ops.cpp: AddZeroPattern, MulByOnePattern, PowExponentZeroPattern, PowExponentOnePattern, fold methods"]}
{"id": "C85", "title": "A reduction gives the sum, product, least or greatest of its values in every order of evaluation", "statement": "sum, product, min and max reductions are run as parallel loops; whatever the order and the grouping of the combinations, the result is the sum, product, minimum or maximum of the values.", "quantifier": "every number of iterations, every values, every order and grouping", "why_tests_cant": "the schedules of a parallel loop are unboundedly many", "anchors": ["lib/Codegen/Conversion/BaseModelicaToArith/BaseModelicaToArith.cpp: ReductionOpLowering, createReductionInitialValue, computeReductionResult"]}
{"id": "C86", "title": "A reduction visits each value of its range exactly once", "statement": "The loop of a reduction over begin:step:end runs once for each value begin + k*step, k = 0, 1, ..., that does not pass the end, and for no other value.", "quantifier": "every begin, end and step other than zero", "why_tests_cant": "all integers", "anchors": ["lib/Codegen/Conversion/BaseModelicaToArith/BaseModelicaToArith.cpp: RangeSizeOpLowering, ReductionOpLowering"]}
{"id": "C87", "title": "Built-in functions of constants have their mathematical value", "statement": "abs, ceil, floor, integer, div, mod, rem, sign, max and min of constants are evaluated to what the language defines: floor and ceil to the neighbouring integers, div to the truncated quotient, mod to x - floor(x/y)*y, rem to x - div(x,y)*y.", "quantifier": "every constants", "why_tests_cant": "the quotients are computed with doubles: rounding could reach the next integer for some operands only", "anchors": ["lib/Dialect/BaseModelica/IR/Ops.cpp: AbsOp::fold, CeilOp::fold, FloorOp::fold, IntegerOp::fold, DivTruncOp::fold, ModOp::fold, RemOp::fold, SignOp::fold, MaxOp::fold, MinOp::fold"]}
{"id": "C88", "title": "The most generic of two scalar types does not depend on their order", "statement": "The type chosen to hold values of two scalar types is the one in the documented table, whatever the order in which the two are given.", "quantifier": "every pair of scalar types, every bit width", "why_tests_cant": "bit widths are unbounded", "anchors": ["lib/Dialect/BaseModelica/IR/Dialect.cpp: getMostGenericScalarType"]}
{"id": "C89", "title": "A function runs as its statements say", "statement": "A call of a compiled function returns, with the outputs the language prescribes, exactly when the statements of its algorithm sections end: assignments, if, for, while, break and return in order, sections one after the other, return ending the call.", "quantifier": "every function body, every nesting of statements, every value of the variables, terminating or not", "why_tests_cant": "bodies nest without bound, loops run any number of times, and non-termination cannot be observed by a test", "anchors": ["lib/Codegen/Lowering/BaseModelica/StatementLowerer.cpp", "lib/Codegen/Lowering/BaseModelica/IfStatementLowerer.cpp", "lib/Codegen/Lowering/BaseModelica/ForStatementLowerer.cpp", "lib/Codegen/Lowering/BaseModelica/WhileStatementLowerer.cpp", "lib/Codegen/Conversion/BaseModelicaToCF/BaseModelicaToCF.cpp: createCFG, recurse, moveAndConvertFunctionBody"]}
{"id": "C90", "title": "Turning structured control flow into branches does not change what a function does", "statement": "The branches made from structured if, for, while, break and return operations run exactly as the structured operations, with the same final state and the same non-termination, and no operation is left unconverted.", "quantifier": "every tree of structured operations, every state", "why_tests_cant": "trees nest without bound and the branch targets depend on the whole nesting", "anchors": ["lib/Codegen/Conversion/BaseModelicaToCF/BaseModelicaToCF.cpp: createCFG, recurse"]}
{"id": "C91", "title": "A for loop takes the values of its range", "statement": "A for statement runs its body once for each value of its range, in order, the range being evaluated once when the loop is reached; a range may have a step, and several indices are loops inside one another.", "quantifier": "every range, every body, every value of the variables", "why_tests_cant": "ranges and bodies are unbounded, and some wrong loops never end", "anchors": ["lib/Codegen/Lowering/BaseModelica/ForStatementLowerer.cpp: lower", "lib/Parser/BaseModelica/Parser.cpp: parseSimpleExpression"]}
{"id": "C92", "title": "Every legal statement is compiled", "statement": "A function whose statements the language accepts is compiled to code.", "quantifier": "every nesting of statements", "why_tests_cant": "a test compiles one body at a time", "anchors": ["lib/Codegen/Lowering/BaseModelica/WhileStatementLowerer.cpp: lower", "lib/Codegen/Conversion/BaseModelicaToCF/BaseModelicaToCF.cpp: createCFG(IfOp), createCFG(WhileOp)"]}
{"id": "C93", "title": "Cutting an equation by its accesses keeps its iterations and its match", "statement": "Cutting a matched array equation by the variable elements its accesses reach yields equations that together stand for each iteration of the original exactly once, and whose matched elements cut the elements matched by the original: each part determines the elements it is matched with, and no element is lost or determined twice.", "quantifier": "every iteration space, every list of accesses and every match", "why_tests_cant": "iteration spaces and sets of accesses are unbounded; a wrong cut shows only for particular overlaps of the accesses", "anchors": ["lib/Dialect/BaseModelica/Transforms/EquationAccessSplit.cpp: splitEquationIndices"]}
{"id": "C94", "title": "Cutting scalar ranges and eliminating single-valued inductions keeps the scalar equations", "statement": "Giving an equation of its own to each range of one iteration, and replacing an induction that takes a single value by that value, leaves the scalar equations of the model as they are: the same equations, each as often as before, still matched with the same elements.", "quantifier": "every iteration space and every equation body", "why_tests_cant": "equation bodies and ranges are unbounded", "anchors": ["lib/Dialect/BaseModelica/Transforms/ScalarRangesEquationSplit.cpp: splitEquation", "lib/Dialect/BaseModelica/Transforms/SingleValuedInductionElimination.cpp: processEquation, createReducedTemplate"]}
{"id": "C95", "title": "Restricting an equation restricts its match", "statement": "When a matched equation is restricted to some of its iterations, it is matched with exactly the elements it was matched with at those iterations.", "quantifier": "every equation, every restriction", "why_tests_cant": "depends on all the accesses of the equation and on the iterations kept", "anchors": ["lib/Dialect/BaseModelica/IR/Ops.cpp: EquationInstanceOp::setIndices, EquationTemplateOp::getWriteAccesses"]}
{"id": "C96", "title": "Replacing an access by the equation that determines it", "statement": "Replacing the read of an array element by the right-hand side of the explicit equation that determines it takes that equation at the iteration that determines the element read, and the new equation holds whenever and only when the old one does, in every state in which the determining equation holds.", "quantifier": "every pair of equations, every affine access, every iteration, every state", "why_tests_cant": "accesses, iteration spaces and values are unbounded", "anchors": ["lib/Dialect/BaseModelica/IR/Ops.cpp: EquationTemplateOp::cloneWithReplacedAccess, getReplacementTransformationAccess, mapInductionVariables", "lib/Dialect/BaseModelica/IR/Ops.cpp: EquationInstanceOp::cloneWithReplacedAccess"]}
{"id": "C97", "title": "Solving a strongly connected component by substitution keeps its solutions", "statement": "When a component is solved by substitution, the equations that replace it have the solutions of the original ones; when it cannot be solved, the component is left as it was.", "quantifier": "every component, every list of cycles found in it, any number of rounds", "why_tests_cant": "the rounds depend on the cycles found, which are unbounded in number and length", "anchors": ["lib/Dialect/BaseModelica/Transforms/SCCSolvingBySubstitution.cpp: solveCycle"]}
{"id": "C98", "title": "A call gives each input the value written for it, or its default", "statement": "In a call, every input of the called function has the value of the argument written for it, by position or by name, and an input without an argument has the value of its default expression, computed from the values the other inputs have in that call. The order in which named arguments are written does not matter, and the compiler accepts every legal call of this kind, written in Modelica or in the compiler's own dialect.", "quantifier": "every function, every legal call with positional or named arguments, every acyclic set of default expressions, every layout of the compiler's memory and every values of the caller's variables", "why_tests_cant": "functions, default expressions and argument orders are unbounded, and the order of computation of the defaults depends on the addresses of objects", "anchors": ["lib/Codegen/Lowering/CallLowerer.cpp: lower, lowerCustomFunctionArgs", "lib/Dialect/BaseModelica/IR/Ops.cpp: CallOp::verifySymbolUses", "lib/Dialect/BaseModelica/Transforms/FunctionDefaultValuesConversion.cpp: fillCallArgs, convertInputDefaultValues, cloneDefaultOpBody", "lib/Dialect/BaseModelica/IR/VariablesDependencyGraph.cpp: postOrder"]}
{"id": "C99", "title": "Outputs and protected variables have their default values when the body starts", "statement": "When the algorithm of a function starts, each output or protected variable that has a default expression holds the value of that expression, where the other variables named in it hold theirs; the remaining variables are as they were; and the compiler accepts every such function.", "quantifier": "every function with acyclic default expressions, every layout of the compiler's memory, every values of the inputs", "why_tests_cant": "the dependencies among default expressions are arbitrary graphs and the order of the assignments depends on the addresses of objects", "anchors": ["lib/Dialect/BaseModelica/Transforms/FunctionDefaultValuesConversion.cpp: convertProtectedAndOutputDefaultValues", "lib/Dialect/BaseModelica/IR/VariablesDependencyGraph.cpp: addVariables, discoverDependencies, postOrder", "lib/Dialect/BaseModelica/IR/DefaultValuesDependencyGraph.cpp: getDependencies"]}
{"id": "C100", "title": "Eliminating repeated calls does not change the model", "statement": "Replacing the calls of equal expressions by a new variable that holds their value keeps the solutions of the model: in every iteration of every equation the element that replaces a call holds the value the call would have, and every such element exists.", "quantifier": "every model, every expression of the arguments, every iteration space", "why_tests_cant": "argument expressions, iteration spaces and the way calls are grouped are unbounded", "anchors": ["lib/Dialect/BaseModelica/Transforms/CallCSE.cpp: getTemplates, buildEquivalenceGroups, emitCseVariables, emitDriverEquationTemplate, replaceCalls", "lib/Dialect/BaseModelica/Transforms/EquationExpressionOpInterfaceImpl.cpp: isEquivalent, areExpressionOperandsEquivalent"]}
{"id": "C101", "title": "The equations of a model become exactly the scalar equations they stand for", "statement": "Lowering the equation sections, splitting tuples, adding inductions to equations between arrays and lifting the equations to templates with iteration spaces keeps the solutions of the model: an assignment of values satisfies every iteration of every template if and only if it satisfies the equations as written, for all iterations of their loops. Every equation between single values gives one template, no iteration is there twice, and every legal equation is compiled.", "quantifier": "every set of equation sections, every nesting of for equations with any ranges, any shapes of arrays, any values of the variables", "why_tests_cant": "nestings, ranges, shapes and values are unbounded", "anchors": ["lib/Codegen/Lowering/ForEquationLowerer.cpp: ForEquationLowerer::lower", "lib/Codegen/Lowering/EqualityEquationLowerer.cpp, IfEquationLowerer.cpp, EquationSectionLowerer.cpp", "lib/Dialect/BaseModelica/Transforms/EquationSidesSplit.cpp: splitEquation", "lib/Dialect/BaseModelica/Transforms/EquationInductionsExplicitation.cpp: explicitateInductions", "lib/Dialect/BaseModelica/Transforms/EquationTemplatesCreation.cpp: createTemplates, getIterationSpace, getRangesCombinations"]}
{"id": "C102", "title": "An algorithm section of a model is the equations it stands for", "statement": "An algorithm section is replaced by equations, one for each variable it assigns, that hold for exactly the values of the variables for which running the section, with the variables it assigns at their start values and the others at their own values, leaves each assigned variable with the value it has. Every legal section is converted.", "quantifier": "every section, with any statements, any start values, any values of the variables and of uninitialised memory, any order of hash sets and any addresses", "why_tests_cant": "statements, values and orders are unbounded", "anchors": ["lib/Dialect/BaseModelica/Transforms/ModelAlgorithmConversion.cpp: AlgorithmOpPattern::matchAndRewrite, getStartOp", "lib/Dialect/BaseModelica/Transforms/ExplicitStartValueInsertion.cpp: processModelOp", "lib/Dialect/BaseModelica/Transforms/FunctionDefaultValuesConversion.cpp: convertProtectedAndOutputDefaultValues"]}
{"id": "C103", "title": "Initial conditions", "statement": "The system of equations solved for the initial time has exactly the solutions of the initial conditions of the language: the equations of the model and its initial equations, the bindings of its variables, and the start values of the variables that are fixed. The start values of the other variables are only what the solvers begin from.", "quantifier": "all sets of variables with any dimensions, bindings and lists of attributes, all equations, all values of the variables", "why_tests_cant": "Whether an equation is dropped or added depends on the combination of kind, binding, start, fixed, each and their order; tests see a few models with one solution each.", "anchors": ["lib/AST/BaseModelica/Modification.cpp: ClassModification::getFixedProperty, getStartExpression, getEachProperty", "lib/Codegen/Lowering/ModelLowerer.cpp: lowerVariableAttributes", "lib/Dialect/BaseModelica/Transforms/BindingEquationConversion.cpp", "lib/Dialect/BaseModelica/Transforms/ExplicitStartValueInsertion.cpp", "lib/Dialect/BaseModelica/Transforms/ExplicitInitialEquationsInsertion.cpp", "lib/Dialect/BaseModelica/Transforms/InitialConditionsSolving.cpp"]}
{"id": "C104", "title": "Inlining a function does not change the value of a call", "statement": "When calls of functions marked for inlining are replaced by the bodies of the functions, in models or in other functions, in any order and any number of times, every expression keeps its value in every environment, and the replacement does not fail.", "quantifier": "all programs, all expressions and environments, all meanings of the operations, any selection and order of the replaced calls", "why_tests_cant": "Tests inline a few functions of one assignment; capture of names, nested and repeated inlining and the interplay of defaults and arguments depend on the whole program.", "anchors": ["lib/Dialect/BaseModelica/Transforms/PureFunctionInlining.cpp: canBeInlined, cloneBodyOp, PureFunctionInliningPass::inlineFunction"]}
{"id": "C105", "title": "Pruning keeps what the outputs need", "statement": "When a model has outputs, removing unneeded variables leaves exactly the variables that the outputs need through the equations and the derivatives, with all the equations solved for them; what is left refers to no removed variable, every solution of the model is a solution of what is left, and the outputs keep their values. Without outputs nothing changes.", "quantifier": "all matched models, all graphs of dependencies and chains of derivatives, all values of variables and meanings of operations", "why_tests_cant": "Tests have graphs of two or three variables; that nothing needed is removed depends on reachability in graphs of any size, and that outputs keep their values concerns all solutions.", "anchors": ["lib/Dialect/BaseModelica/Transforms/VariablesPruning.cpp: processModelOp, collectUsedVariables, removeIfUnused", "include/marco/Modeling/ArrayVariablesDependencyGraph.h: addEquations, getSCCs"]}
{"id": "C106", "title": "Promoting variables to parameters keeps the simulation", "statement": "A variable that is made a parameter is constant over time in every solution of the model, and the model with the new parameters, whose equations are computed only at the start, has exactly the solutions of the model before.", "quantifier": "all matched models with scalar and array variables, all lists of strongly connected components in all orders, all meanings of operations, all solutions over all instants", "why_tests_cant": "Whether a variable is constant concerns all solutions and instants; tests compare the printed model for a few shapes of accesses and cannot see that another shape of access changes the values at later instants.", "anchors": ["lib/Dialect/BaseModelica/Transforms/VariablesPromotion.cpp: processModelOp", "lib/Dialect/BaseModelica/IR/Dialect.cpp: getWritesMap"]}
{"id": "C107", "title": "Propagating read-only variables keeps the values under every schedule", "statement": "Replacing the reads of parameters and constants with copies of their binding equations keeps the value of every equation, for all values of the variables that the binding equations give, whatever the order in which the parallel tasks take their steps, and no task fails; at the end no read is left to replace.", "quantifier": "all models with binding equations, all schedules of the steps of the parallel tasks, all meanings of operations and values of variables", "why_tests_cant": "Tests run one schedule, usually with a single thread; a race shows up only for some interleavings of tasks and some chains of binding equations.", "anchors": ["lib/Dialect/BaseModelica/Transforms/ReadOnlyVariablesPropagation.cpp: processModelOp", "lib/Frontend/FrontendActions.cpp: enableMultithreading, createMLIRReadOnlyVariablesPropagationPass"]}
{"id": "C108", "title": "A function called with arrays is called for each element", "statement": "A call whose arguments have more dimensions than the function declares returns the array whose part at each index is the function's result for the parts of the arguments at that index, for every function, number of extra dimensions and sizes, known at compile time or not; arguments of the declared ranks give one plain call; arguments whose extra dimensions differ in size are refused, at compile time or at run time.", "quantifier": "all functions, argument counts, ranks, static and dynamic sizes, element values", "why_tests_cant": "Tests call a scalar function with one vector of three elements; the shapes that fail (two non-square matrices, sizes known only at run time, results of unknown size) are combinations of ranks and sizes.", "anchors": ["lib/Codegen/Lowering/CallLowerer.cpp: getVectorizedResultTypes", "lib/Dialect/BaseModelica/Transforms/FunctionScalarization.cpp: getVectorizationRank, ScalarizationPattern", "lib/Dialect/BaseModelica/Transforms/VectorizableOpInterfaceImpl.cpp: CallOpInterface"]}
{"id": "C109", "title": "Slices read and write the elements they name", "statement": "A reference with indices, ranges of any step and colons, or a subscripted expression, has the sizes Modelica gives it, reads for each of its indices the element of the array that Modelica names, keeps doing so after its views are folded or merged, and an assignment to it writes those elements.", "quantifier": "all arrays, ranks, sizes, subscripts, chains of slices, element values", "why_tests_cant": "Tests slice a few arrays with step one; that merging two slices swaps the dimensions, or that a negative step writes before the range, depends on the combination of subscripts.", "anchors": ["lib/Codegen/Lowering/SubscriptLowerer.cpp: lower", "lib/Dialect/BaseModelica/IR/Ops.cpp: MergeTensorViewsPattern, MergeTensorViewIntoTensorExtractPattern, TensorViewOp::inferResultType", "lib/Dialect/BaseModelica/Transforms/ViewAccessFolding.cpp: concatSubscripts", "lib/Dialect/BaseModelica/Transforms/RangeBoundariesInference.cpp", "lib/Codegen/Conversion/BaseModelicaToTensor/BaseModelicaToTensor.cpp: TensorViewOpLowering, TensorInsertSliceOpLowering"]}
{"id": "C110", "title": "Start values come after what they depend on and before what overrides them", "statement": "In the schedule of the initial model every start equation runs once, after every block that computes something it reads; unless the user is warned, before every block that writes its variable; so a variable that only a start attribute sets ends with the value of that expression, and a variable that an initial equation gives keeps the value of the equation.", "quantifier": "all schedules of blocks, all lists of start equations, all values and meanings of blocks and expressions", "why_tests_cant": "Tests have one or two start attributes with literal values; the order matters only when start expressions read parameters computed by other blocks or set by other start attributes.", "anchors": ["lib/Dialect/BaseModelica/Transforms/Scheduling.cpp: SchedulingPass::addStartEquations, processInitialModel"]}
{"id": "C111", "title": "References to components of records read the elements they name", "statement": "A reference through records and arrays of records, with subscripts on any of its names, reads the element in which each name's subscripts belong to that name's own dimensions and left-out subscripts are colons; names that are not components are refused; and after the record variables are unpacked into one variable for each component, in any order, each read is of a declared variable and of the same element.", "quantifier": "all record types, nestings, ranks, references, subscripts, indices, orders of unpacking", "why_tests_cant": "Tests have one array of records with scalar components and all subscripts; where subscripts go wrong depends on which names have them and on the nesting.", "anchors": ["lib/Codegen/Lowering/ComponentReferenceLowerer.cpp: lower, lowerSubscripts", "lib/Dialect/BaseModelica/Transforms/RecordInlining.cpp: replaceRecordGetters, applySubscriptions, VariableOpUnpackPattern, replaceVariableGetOp"]}
{"id": "C112", "title": "Assignments to records and their components change the elements they name", "statement": "In an algorithm, an assignment to a reference through records and arrays of records stores each element of the value in the element that the reference names, in which each name's subscripts belong to that name's own dimensions, and changes nothing else; an assignment of a record sets each component from the same component of the value.", "quantifier": "all record types, nestings, ranks, references, subscripts, values", "why_tests_cant": "Which assignments go wrong depends on the nesting, on which names have subscripts and on whether the value is an array or a record; tests have one of each.", "anchors": ["lib/Codegen/Lowering/AssignmentStatementLowerer.cpp: lowerAssignmentToComponentReference", "lib/Dialect/BaseModelica/Transforms/RecordInlining.cpp: VariableSetOpUnpackPattern, VariableComponentSetOpUnpackPattern, replaceVariableComponentSetOp, getFullRankSubscripts", "lib/Dialect/BaseModelica/IR/Ops.cpp: VariableComponentSetOp::getComponentSubscripts"]}
{"id": "C113", "title": "Calls with records pass each component to its parameter and take each result from its output", "statement": "In a call of a function with records among its parameters or outputs, every component of an argument arrives in the same component of the parameter it is for, by position or by name, and every use of a component of a result gets that component of the output it belongs to, for any nesting and any mixture of records and other values.", "quantifier": "all functions, record types, nestings, argument lists, result lists, orders of unpacking", "why_tests_cant": "Tests call with one record argument or one record result; positions shift only with mixtures of records and other values and with nesting.", "anchors": ["lib/Dialect/BaseModelica/Transforms/RecordInlining.cpp: unpackCallArg, CallResultUnpackPattern, unpackResultType, VariableOpUnpackPattern"]}
{"id": "C114", "title": "Running a parallel group with the scheduler gives the values of running its blocks in sequence", "statement": "When the blocks of a parallel group are given to the runtime's scheduler, every scalar equation is still run exactly once, and on any number of threads and with any interleaving every variable gets the value it has when the blocks run one after the other.", "quantifier": "all groups of blocks, index sets, interleavings, initial values", "why_tests_cant": "A race shows only under some interleavings; the property ranges over all of them.", "anchors": ["lib/Dialect/BaseModelica/Transforms/SchedulersInstantiation.cpp: processParallelOps, collectEquationCallBlocks, configureScheduler", "lib/Codegen/Conversion/RuntimeToLLVM/RuntimeToLLVM.cpp: SchedulerAddEquationOpLowering", "lib/Codegen/Conversion/BaseModelicaToFunc/BaseModelicaToFunc.cpp: EquationCallOpLowering"]}
{"id": "C115", "title": "Run-time checks stop a simulation exactly when an operation is not defined", "statement": "With run-time verification on (the default without optimisation), reading or writing an element or a slice of an array, dividing, and calling acos, asin, log, log10, sqrt, mod, rem, div and size stops the simulation with an error exactly when the element does not exist, the shapes differ, or the argument is outside the function's domain; defined operations are never stopped.", "quantifier": "all arrays, sizes, subscripts and doubles", "why_tests_cant": "Both directions range over all sizes, subscripts and values: a missing check or a false alarm shows only for particular ones.", "anchors": ["lib/Dialect/BaseModelica/Transforms/RuntimeVerifiableOpInterfaceImpl.cpp: verifyIndexedAccess, TensorViewOpRuntimeVerifier, TensorInsertSliceOpRuntimeVerifier, verifyArgumentIsPositive, verifyArgumentIsNotZero, verifyArgumentIsBetween", "lib/Codegen/Conversion/BaseModelicaToArith/BaseModelicaToArith.cpp: RangeSizeOpLowering", "lib/Frontend/FrontendActions.cpp: createGenerateRuntimeVerificationPass"]}
{"id": "C116", "title": "Operators on arrays compute what the language says", "statement": "Sums, differences, products and quotients of arrays, and of arrays and scalars, have the sizes of the operands and the operator on each pair of elements; products of vectors and matrices and powers of square matrices are those of linear algebra; Integer operands are converted when the other is Real.", "quantifier": "all numbers (any commutative ring), sizes, element types, combinations of operands, and contents of fresh memory", "why_tests_cant": "The results range over all sizes and elements, and over what the memory of the result happens to contain: a test sees one size and usually zeroed memory.", "anchors": ["lib/Codegen/Conversion/BaseModelicaToLinalg/BaseModelicaToLinalg.cpp: AddOpLowering, AddEWOMixedLowering, SubEWOpScalarTensorLowering, MulOpScalarProductLowering, MulOpCrossProductLowering, MulOpVectorMatrixLowering, MulOpMatrixVectorLowering, MulOpMatrixLowering, DivOpTensorScalarLowering, PowOpLowering", "lib/Dialect/BaseModelica/IR/Ops.cpp: MulOp::inferReturnTypes, DivOp::inferReturnTypes"]}
{"id": "C117", "title": "Array constructors, fill, size and ndims give the arrays they name", "statement": "An array constructor {a, b, ...} or {e for i in 1:n, j in 1:m} gives the array with the sizes and elements that the language says, with e evaluated for each index; fill(v, n, ...) has v everywhere; size and ndims give the sizes and the number of dimensions.", "quantifier": "all constructors of any nesting, indices, ranges, expressions, scopes and contents of fresh memory", "why_tests_cant": "Sizes, nesting depth and expressions are unbounded, and the order of the values is produced by a loop over two stacks; a test sees a few shapes.", "anchors": ["lib/Codegen/Lowering/ArrayGeneratorLowerer.cpp: ArrayGeneratorLowerer::computeShape, lowerValues, lower", "lib/Codegen/Lowering/CallLowerer.cpp: CallLowerer::fill, ndims, size", "lib/Codegen/Conversion/BaseModelicaToTensor/BaseModelicaToTensor.cpp: TensorFromElementsOpLowering, TensorBroadcastOpLowering, SizeOpArrayLowering, SizeOpDimensionLowering, NDimsOpLowering, FillOpLowering"]}
{"id": "C118", "title": "A compiled model describes its variables consistently", "statement": "The functions of a compiled model that give the number of variables and, for a variable number, the name, rank, value, derivative, printability and printable boxes all speak of the same variable for the same number; the boxes and bounds they report cover exactly the elements that the variable filter selects; numbers out of range give the documented defaults.", "quantifier": "all lists of variables, derivative maps, selected index sets, element indices, numbers and iteration orders of the compiler's map of boxes", "why_tests_cant": "The functions come from separate loops that skip variables independently and from shared nested switches; a test tries a few models and, for reserved names, none.", "anchors": ["lib/Codegen/Conversion/BaseModelicaToRuntime/BaseModelicaToRuntime.cpp: createNumOfVariablesOp, createVariableNamesOp, createVariableRanksOp, createPrintableIndicesOp, createDerivativesMapOp, createVariableGetters", "lib/Codegen/Conversion/RuntimeModelMetadataConversion/RuntimeModelMetadataConversion.cpp: VariableNamesOpLowering, VariableRanksOpLowering, PrintableIndicesOpLowering, DerivativesMapOpLowering, VariableGettersOpLowering", "lib/Dialect/BaseModelica/IR/Dialect.cpp: isReservedVariable"]}
{"id": "C119", "title": "Calls run the function they name, also after functions leave their packages", "statement": "Functions are moved from packages to the top of the program and renamed. Afterwards every call, in models and in functions, runs the function it ran before; every function has a name of its own; a call keeps the shape of its result, and a function its annotations.", "quantifier": "all sets of functions and classes, all names (also ones that become equal when joined), all calls and results", "why_tests_cant": "Joined names coincide only for unlucky choices of names, and shape is lost only for calls for each element of functions in packages; a test suite has a few names.", "anchors": ["lib/Dialect/BaseModelica/Transforms/FunctionUnwrap.cpp: FunctionOpPattern, FunctionUnwrapPass::runOnOperation", "lib/Dialect/BaseModelica/Transforms/FunctionMangling.cpp: FunctionManglingPass::runOnOperation", "lib/Dialect/BaseModelica/IR/Ops.cpp: CallOp::build, FunctionOp::shouldBeInlined"]}
{"id": "C120", "title": "Every element of a derivative is determined", "statement": "When a model differentiates some elements of an array, the derivative is a whole array: each element of it that the model does not determine is set to zero by exactly one equation, no element that the model differentiates gets such an equation, no equation is about an element that does not exist, and every derivative has the start value zero, which is not fixed.", "quantifier": "all lists of derived variables, all shapes with positive dimensions, all sets of derived indices however they were built", "why_tests_cant": "The set of the remaining elements comes from differences and compactions of trees of boxes whose shape depends on the history of the set; a test tries a few sets.", "anchors": ["lib/Dialect/BaseModelica/Transforms/DerivativesInitialization.cpp: shapeToIndexSet, createStartOp, createMainEquations, processModelOp", "lib/Modeling/IndexSet.cpp: operator-=, getCompactRanges"]}
