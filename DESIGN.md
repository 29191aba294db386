# Formal model of marco-compiler/marco

The model and proofs are in `rocq/theories`. This file says what is modelled, how each property is proved, what is
assumed, and what was found to disagree with the property.

## Method

* Model files (`*Model.v`) hold total Gallina functions. Each carries a comment with the C++ file and lines it models.
* Proof files hold lemmas. `Properties*.v` files hold only the property theorems, their non-vacuity examples and
  `Print Assumptions`.
* Integers are unbounded (`Z`): wrap-around of `int64_t` is out of scope unless a property says otherwise.
* `assert`s of the code are preconditions of the theorems (well-formedness hypotheses).
* Where the code does not satisfy the property, a `_refuted` theorem gives a concrete witness, and a `_partial` theorem
  gives the strongest restriction proved.

## Plan per property

* **C01** Range queries are exact set queries. Model `Range` as a record begin/end (Z). Every method as a boolean/Z function. Prove by arithmetic against `In_range v r := begin<=v<end`.
* **C02** Range merge and difference are exact. `range_subtract` returns a list; prove membership, non-emptiness, disjointness, order.
* **C03** Multidimensional range queries are exact. `mdrange := list range`; points `list Z`. Denotation `In_box`. Induction on rank.
* **C04** Box difference partitions the difference set. The accumulator loop of `subtract` is modelled as in the code (pieces emitted dimension by dimension). Induction on the processed prefix.
* **C05** Box merging is exact. `canBeMerged` (exactly one differing dimension) and `merge`. Induction on rank.
* **C06** Iterating a box visits each point once, in lexicographic order. Odometer iterator as a step function on a list of cursors; prove that iterating from begin to end lists the lexicographic product. Induction on rank.
* **C07** Comparison and equality of points, ranges and boxes. Comparison functions; the `!=` of Range with an integer uses `&&`, so equality of a box with a point is expected to be refuted.
* **C08** Index sets add exactly what is inserted. Functional model of the R-tree (leaf/inner nodes with cached boundaries) with the insert path of the code (split, propagation, merge hook). Invariant by induction over histories.
* **C09** Index sets remove exactly what is removed. Same tree. The in-place loop of `remove` over a collected list of node pointers is modelled with node identities.
* **C10** Building an index set from a list of ranges. `setFromRanges` and the constructors, step by step.
* **C11** Index set containment and overlap queries are exact. Work-list algorithms with fuel and termination measure.
* **C12** Index set intersection is exact. Simultaneous tree descent.
* **C13** Index set complement is exact. Complement by repeated subtraction.
* **C14** Projection and product of index sets. Per-range projection and product, re-inserted.
* **C15** An index set iterates each point once and reports the right size. Iterators over the tree; size as sum of box sizes.
* **C16** Index set equality is set equality. Mutual containment plus rank test.
* **C17** Compact ranges represent the same set. Grid split.
* **C18** The spatial index stays well formed. Invariant of the tree.
* **C19** Overlap search in the spatial index is complete and sound. Stack-based walk of the tree; permutation of the filter of the stored objects.
* **C20** Mapping an index set through an access function gives the image. Access functions as inductive types per class.
* **C21** Inverting an access function round-trips. Permutation + offset.
* **C22** Inverse image of accessed indices. inverseMap per class.
* **C23** Combining access functions is function composition. Affine composition; generic composition.
* **C24** Equal access functions behave equally. Structural comparison per class.
* **C25** Incidence matrices store what is set. MCIM = groups (access function, keys) + points; history invariant against a relation on (equation, variable) points.
* **C26** Incidence matrix sum and difference are entrywise. idem.
* **C27** Filtering and flattening an incidence matrix. idem.
* **C28** Local matching decompositions are valid and complete. Rows/columns at most one, coverage.
* **C29** Matched and unmatched indices partition a vertex. MatchModel.v: `matchable` with the three index sets and its mutators; histories of mutators, by induction; the edge operations in the same way. setIndices outside the old set and EquationVertex::setIndices (moved-from pointer) are refuted.
* **C30** Augmenting along a path keeps the matching valid and grows it. `apply_path` on a graph of edges with matched and unmatched entries. C30_augment: one path with the shape of an alternating path keeps validity and adds as many scalars as the path says. C30_search: every path that the search accepts has that shape, for every local solver meeting C28 and every schedule. C30_together_refuted: two paths accepted together may share a scalar.
* **C31** Leaf simplification does not lose solutions. Perfect matchings of the scalar system as a specification (`perfect`); each leaf step is forced, so a perfect matching of the system exists exactly when one of the rest does. Induction on the work list.
* **C32** A successful match is a perfect matching. The whole pipeline (leaves, scalarization, leaves again, Hopcroft-Karp) as `p_match`/`match_run`. Soundness, completeness (Berge, by symmetric difference of matchings) and termination when the array variables are scalarized. Otherwise refuted.
* **C33** Dependency edges are exactly the read-after-write pairs. SchedModel.v: the two dependency graphs. C33_no_missing_edge needs no restriction; C33_edges_partial the converse when no dimension is used by two results.
* **C34** Scheduling visits dependencies first. PostOrderProofs.v: post-order of LLVM over the graph of the components as a DFS with a visited set. Then SCCsDependencyGraph and Scheduler as they call it.
* **C35** Iteration directions respect self-dependencies. DirectionProofs.v: the analysis of the offsets per dimension, against the lexicographic execution order with the chosen directions.
* **C36** Generated loops execute exactly the scheduled iterations. Loop nest semantics: the list of executed index tuples.
* **C37** Parallel schedule groups are dependency-free and complete. ParModel.v: parallelizeBlocks (writers map, graph, groups) and the pass over the operations of a schedule; ParSpec.v: `reads_from` (a common element or scalar), `valid` (what an operation reads from others is in the previous steps). Invariant of the loops: taken blocks, in-degree plus taken distinct writers = number of entries of the graph. C37_groups for all inputs; C37_schedule_partial under `one_link`; refuted: a block that reads two variables of one block is left before the block it reads.
* **C38** Looking up writers of a variable region. Lookup through the overlap walk.
* **C39** Inverting an operation solves for the operand. Inverse operations on real numbers with definedness side conditions.
* **C40** Distributing negation, product and quotient preserves values. Expression trees and the mutually recursive distribution functions; evaluation to option R.
* **C41** Explicitation by grouping preserves the equation. Factor collection and the resulting explicit equation.
* **C42** Generated derivatives are mathematical derivatives. DerModel.v: `derive` is the forward-mode derivation of each operation of ForwardAD's interface models (scalars), for time derivatives and for partial derivatives. DerSpec.v: a relational value over the reals (partial: division, powers, logarithms and roots have domains), `value_near`, `derivatives_ok`, `regular`. C42_derivative and C42_regular by induction on the expression with the derivative rules of Coq.Reals (no Coquelicot); C42_equation: a derived equation holds wherever the equation holds along the trajectory. Refuted: elementwise division, equations reading an induction variable, powers at a negative base.
* **C43** Numeric literals denote their decimal value. Digit folds over Z/Q.
* **C44** Variable filter text round-trips. Character state machine and recursive descent parser.
* **C45** Variable filter decides visibility as specified. Decision functions.
* **C46** Constant folding of ranges. Integer ranges as enumerations.
* **C47** Derivative bookkeeping is consistent. DerMapModel.v: the map and its inverse as association lists, with the mutators of DerivativesMap, and the two passes that fill it. Invariant by induction over histories.
* **C48** Structural differentiation only grows, never repeats. PantModel.v: PantelidesGraph over the matching graph, the callbacks as state transformers, and a log of their calls. Invariant `pinv` over every operation: the recorded indices of a descriptor are those handed over in its calls.
* **C49** Comparing a box with a point. Comparison functions; refuted (`!=` uses `&&`).
* **C50** Equal index sets hash equally. Iteration lists without repetition of the same set are permutations.
* **C51** The spatial index stores exactly the inserted objects. Permutations of the stored objects; node identities for the removal loop.
* **C52** Building an access function from an affine map keeps its meaning. AccessModel.v: fromAffineMap, the dispatch between the classes, and getAccessFunction-style construction from dimension accesses; evaluated against the affine map.
* **C53** The order of index sets is a total order on the sets. Lexicographic comparison of the sorted ranges; refuted on two cuts of one set.
* **C54** Restricting an incidence matrix to other spaces. setEquationSpace, setVariableSpace, withSpace of MCIM, against the entries of the matrix (C25's relation).
* **C55** Incidence matrices are equal exactly when they have the same spaces and entries. operator== on groups and points; both directions.
* **C56** Code created for an affine access computes the accessed index. The arith operations created for each affine expression, with the semantics of divsi and remsi; refuted for floor divisions of negative numbers.
* **C57** Access functions extracted from subscripts reach the denoted elements. getAccesses from subscription, load and slice operations.
* **C58** The lexer gives back the tokens that are written. LexerModel.v: the state machine by character. Printing then lexing, for every sequence of tokens whose printed neighbours do not run together; termination for every text.
* **C59** The derivatives map survives being stored. Attribute, bytecode and text forms of the map of C47; round trips.
* **C60** Materializing derivatives records exactly the differentiated indices. DerMapModel.v: the collection of the derived indices by threads (any order) and the pass that adds the derivative variables.
* **C61** Index reduction calls its callbacks soundly and trips no assertion. PantSafeProofs.v: invariant `good` on the graph (every edge between live vertices, entries inside their indices, matched and unmatched parts cover a vertex), kept by each step; each `Bad` of the loop is excluded by it.
* **C62** Index reduction ends. Refuted by an invariant `stuck` that each round of the loop re-establishes.
* **C63** The derivative of an equation has the indices that were differentiated. The log keeps the answered indices, to be compared with the vertex at the end.
* **C64** Only needed variables are differentiated. Refuted: the visits of the search take all the variables of an edge.
* **C65** The reduced system can be solved. PantSpec.v: `matchable_system` (an injective assignment of the equations left to the variables left). Positive part by an invariant on the work list: from each declared equation the calls lead to one on the list or to one that is marked as matched, and marked indices stay so (augmenting paths alternate). The full claim is refuted on a chain of three integrators.
* **C66** Every expression of the language is read with its own tree. ParserModel.v: parseExpression and all it calls, over the tokens of LexerModel.v. ParserSpec.v: the grammar of the specification as inductive predicates between token lists and trees, level by level, tied by the depth of nesting. By induction on the depth and, for each level, on the derivation, with a bound on the tokens left as fuel; left-recursive levels by relating the operator loop to the derivation read so far. Unambiguity is a corollary. TokenSpec.v: how each keyword and symbol is written, from the kind to the text; the tables of the parser are proved to agree with it (C66_kinds), which carries C66 and C72 from characters to trees.
* **C67** Reading an expression ends. The recursive calls are on strictly shorter lists, because a success consumes a token; every level returns something else than out of fuel. Refuted for the diagnostics: `assert(result != nullptr)` in parsePrimary.
* **C68** Only expressions are read. By induction on the fuel, each level gives a derivation of the relaxed grammar; the one of the language is refuted by `(a b)`, with a lemma that tokens without operators can only be a primary.
* **C69** Exactly the equations of the language are read. BlockParserModel.v: parseEquation and the block equations over the parser of expressions; BlockParserSpec.v: the grammar with blocks, branches and else, tied by depth. Completeness by induction on the depth, with generic lemmas for blocks and branches; soundness by induction on the fuel. General refutations for elseif (the setter indexes an empty vector) and for when (`end if` is expected).
* **C70** Exactly the statements of the language are read. The same file and method; general refutations for when (`loop` is expected) and for calls without arguments.
* **C71** Reading equations and statements ends. From C67 and the progress of every item.
* **C72** The classes of the language are read with their trees. ClassParserModel.v: parseClassDefinition and all it calls, with the loop over the sections and its flag for elements without a keyword; ClassParserSpec.v: the grammar of classes, where a place (what came last) says where a component or a class may come. Completeness by induction on the depth of nesting and, for the body, on the length of its tokens. The forms of the language that are rejected have refutations.
* **C73** Reading classes ends. The loop over the sections moves on where no `public` and `protected` occur and each `initial` begins a section: induction on the tokens. Elsewhere there is a round that reads nothing: for every number of rounds the model runs out of them.
* **C74** Only classes are read. Soundness against the relaxed grammar by induction on the fuel.
* **C75** A step of the simulation is a step of the method. RKModel.v: the generated equations of tryStep (slopes, next values, copies of the derivative equations) and their evaluation, with the values that a called function reads apart from those the dependency graph sees. RKSpec.v: the textbook equations of a Runge-Kutta step over an unknown right-hand side. Proved for every memory that solves the equations and for every order of execution the dependencies allow; refuted in general for coupled arrays, coupled states and algebraic variables.
* **C76** The methods are the published ones, with their orders. The tableaux of the code against a catalogue of published ones; order conditions over all rooted trees (Butcher), reduced to a finite check whose completeness is proved; end to end, polynomials in the time are integrated exactly and linear equations agree with the exponential up to the order.
* **C77** The estimate of the error. The maximum over the error variables, related to the difference of the two updates.
* **C78** An accepted step. The equations of acceptStep run in order, the copied derivative equations, the components run by updateNonStateVariables.
* **C79** Forward Euler. Fold over the states, with the ranged and the monolithic update; the step of the explicit Euler method, also for coupled equations.
* **C80** The time in the equations of the derivatives. Operations with operands, replaceAllUsesWith as a map; refuted for every body in which the time occurs.
* **C81** Constant folding. The fold of every scalar operator, with binary64 numbers (SpecFloat); against a meaning of expressions written apart. Refuted for products by zero, `./` and `^` of Integers, arrays to the power 0.
* **C82** Generated arithmetic. The conversion to the arith dialect as a function to typed code, its verifier and a machine for it; induction over the expression. Refuted for `.-`, `./`, the order of Booleans, `<>` of a NaN, an if-expression of an Integer and a Real.
* **C83** Compile time against run time. From C81 and C82; refuted for conversions to Boolean and index.
* **C84** Simplification. A relation that folds or simplifies any operation anywhere, in any order; invariant. Refuted for the sign of zero and 0 * infinity.
* **C85** Reductions. A tree of combinations in any order; sums modulo 2^64; least and greatest. Refuted for the maximum and the sum of Reals.
* **C86** Ranges of reductions. The loop bounds against the set of values; refuted for a range that ends less than a step before its beginning.
* **C87** Built-in functions of constants. Against the real numbers, with Flocq for the rounding of quotients; div and mod up to 53 bits, refuted beyond.
* **C88** The most generic of two types, against the table in its comment; refuted for Integer with index or iN.
* **C89** Statements to operations (big-step against big-step, both directions, by induction on the syntax), then operations
  to blocks and branches (C90); the graph returns a store iff the statements end with it, so divergence is covered too.
* **C90** Forward simulation by induction on the run of the operations, backward by induction on the syntax and on the number
  of steps of the graph; block numbers are distinct, no operation is left behind.
* **C91** The loop alone, as the chain of its index values; refuted for a step, an assigned bound and two indices.
* **C92** Covered functions compile; refuted for `while`, for control flow in the first block of an `if` with `else`, and for
  statements after a `return`.
* **C93** The cut by accesses. The two folds over the partitions, and the four assertions; iterations by an invariant of the
  folds, the match by the condition that the accesses to an element stay among the elements with the same accesses.
* **C94** Scalar ranges and single-valued inductions. Equations as templates with affine accesses, grounded at each
  iteration; the lists of ground equations are permutations of each other.
* **C95** Restriction. setIndices and getWriteAccesses; the union of the images of the write accesses.
* **C96** Substitution. The transformation of getReplacementTransformationAccess as the inverse of the write access after the
  read; equations evaluated in any interpretation of the operators.
* **C97** The component. The recursion on the cycle and the loop over the rounds, for any function that finds cycles; invariant
  on the operations of the component: those kept imply the others.
* **C98** Arguments of calls. The lowering of positional and named arguments, the legality check of calls, and the pass that
  fills missing arguments, with the dependency graph of the default expressions ordered by the addresses of the variables;
  the value an input must have is an inductive relation on the source call, and the arguments are compared with it.
* **C99** Defaults of outputs and protected variables. The same graph, over the variables that have a default; the store
  after the inserted assignments is the one in which every default equation holds.
* **C100** Repeated calls. Expressions with inductions and nested bodies, the comparison of expressions and the grouping of
  calls; the value of the element that replaces a call against the value of the call, in any interpretation of the operators.
* **C101** Equations of the source. For equations with ranges of literals, tuples and arrays; the solutions of each stage are
  those of the one before it, and the iteration spaces, which are index sets of the code, hold the values of the loops.
* **C102** Algorithm sections. The conversion to a function and equations, on the statements of C89 and the defaults of C99;
  a frame lemma for statements relates the memory of the function to the variables of the model.
* **C103** Initial conditions. InitModel.v models the reading of `start`, `fixed` and `each`, the lowering of
  the attributes, the conversion of the bindings, the implicit start values, the equations added for fixed
  variables and the choice of the values the solvers begin from. InitSpec.v states the initial conditions of
  the language. The theorem says that both have the same solutions, for any equations and expressions, when
  the attributes are ones the compiler handles; the others are refuted.
* **C104** Inlining. InlineModel.v models canBeInlined, cloneBodyOp and inlineFunction on the trees of the values
  of a body. InlineSpec.v gives the value of a call and a relation for replacing any calls of a program by what the
  code gives. The theorem, by induction on the evaluation, says that values are kept for any meaning of the operations;
  the functions for which they are not are refuted.
* **C105** Pruning. PruneModel.v models collectUsedVariables (edges of equations and derivatives, the visit from the
  entry node) and the removal. PruneSpec.v defines inductively the variables the outputs need and the solutions of a
  model over any values. Kept = needed by the invariant of the visit; solutions restrict to what is left, and the
  outputs keep their values when what is left determines them. Start values are refuted.
* **C106** Promotion of variables to parameters. PromoteModel.v models the checks of accesses, equations and SCCs, the
  promoted variables, the initial equations made and the main equations taken away. PromoteSpec.v defines solutions
  over time, with parameters constant, over any values. Constancy by induction over the SCCs, from the SCCs determining
  what they are solved for; both models have the same solutions. Accesses that reach states and constants, and arrays
  written element by element, are refuted.
* **C107** Propagation of read-only variables, under every schedule. PropagateModel.v is a small-step machine with one task
  for each region; a schedule is a list of tasks. PropagateSpec.v defines the value of a region and the schedules in which
  no copied equation changes. Values are kept by an invariant that relates the copied prefix and the mapping with the
  values of the binding equation. Independent binding equations and one thread are cases; races are refuted.
* **C108** Calls for each element. VectorCallModel.v: the type the lowering gives, the vectorization rank the pass computes, the
  allocation, the loop nest and the copies; static sizes may be unknown. VectorCallSpec.v says what `for each` means on the
  elements. Proved by an invariant of the loop nest and of the types met so far; the failing shapes are refuted in general.
* **C109** Slices. SliceModel.v: the subscripts from the source to offsets, sizes and strides, and the three rewritings of
  views. SliceSpec.v: a relation says which element of the array an element of the slice is. Proved by induction on the
  subscripts and on the chain of views.
* **C110** Start values in the initial schedule. StartOrderModel.v: the last block a start equation depends on, the first
  that writes its variable, the insertion and the warning. StartOrderSpec.v: order in a list, and running the block on
  values. Proved with an invariant of the block (every operation once, blocks in order) over the insertions.
* **C111** References to record components. RecordRefModel.v: the operations a reference is lowered to, and the unpacking
  of record variables as steps in any order. RecordRefSpec.v: a relation says which element a reference names. Proved by
  induction on the names, and with an invariant over the unpackings.
* **C112** Assignments to records. RecordAssignModel.v: the assignment operations with their paths, subscripts and counts,
  and the rewriting to insertions into the component's variable. RecordAssignSpec.v: where an insertion stores each element,
  compared with the elements the reference names (the relation of C111). Proved by cases and induction on the path.
* **C113** Calls with records. RecordCallModel.v: unpacking of parameters, arguments and results as steps in any order.
  RecordCallSpec.v: the components without records of a type, and what it means that an argument is for a parameter. Proved with
  an invariant: the list of the paths of all components does not change.
* **C114** Parallel groups and the scheduler. ParRunModel.v: blocks, calls with boxes, what is registered with the scheduler, and the
  effect of steps on a store. ParRunSpec.v: which sequences the runtime may run, when steps are apart. Proved by a trace argument: a
  permutation that keeps the order of dependent steps can be undone by exchanging steps that are apart.
* **C115** Run-time checks. RtCheckModel.v: the conditions of the assertions before element accesses, slices, slice assignments and
  functions of doubles (the standard library's SpecFloat). RtCheckSpec.v: which elements a slice stands for (slice_of of C109's
  specification), when a function is defined. Proved by induction on the subscripts; comparisons with one from the canonical form.
* **C116** Operators on arrays. ArrayOpsModel.v: the lowering of + - * / and their element-wise forms to linalg operations, with the
  contents of fresh tensors as a parameter; the loop of the power. ArrayOpsSpec.v: section 10.6 of the specification with sums over
  ranges of indices. Proved by the laws of commutative rings, exchange of sums and induction on the exponent.
* **C117** Array constructors. ArrayGenModel.v: the sizes from the first elements, the two stacks of lowerValues, from_elements and splat.
  ArrayGenSpec.v: sizes as a relation, the element at given indices with the indices of the constructor bound. Proved by induction on
  the constructor (nested lists); the stacks give the leaves in order, row-major positions by uniform concatenation.
* **C118** Description of a compiled model. MetadataModel.v: the loops that skip reserved variables, cf.switch, the shared blocks through
  std::set and std::map. MetadataSpec.v: the variable number i as a relation, the box that a caller sees. Proved by induction on the list of
  variables; the shared blocks by totality of the orders; composed with C17 for the points of the compact ranges.
* **C119** Functions out of packages. UnwrapModel.v: joined names, insertion into the symbol table with its counter, calls built again, mangling.
  UnwrapSpec.v: which function a call runs, as a relation on paths. Proved with the invariant that new names avoid the table; the counter ends by the
  pigeonhole principle.
* **C120** Derivatives that a model determines in part. DerInitModel.v: the set of the elements that are not derived, its compact ranges, one
  equation per variable, one start value. DerInitSpec.v: shapes and which equation sets an element. Proved by composing C08, C09, C10 and C17; exact
  for arrays of at most 16 elements through the histories of C08_C09_small_regions.

## Trusted base

* The kernel of Coq 8.16.1 (and its `vm_compute`, used for the concrete runs), and `coqchk`.
* The reading of the C++ into Gallina: each definition of a `*Model.v` file cites its source. Nothing is extracted or run
  against the C++.
* The statements: `*Spec.v` and the `Properties*.v` files.
* Axioms. `Print Assumptions` stands beneath each theorem of the `Properties*.v` files. It says "Closed under the global
  context" for all of them, but for those that speak of real numbers, which use axioms of the standard library:
  * C39_inverse, C39_explicit, C40_defined_partial, C40_value_partial, C40_negation, C40_distribute, C40_zero_refuted,
    C41_group, C41_explicit, C41_accesses, C41_solved, C41_coefficients_refuted: `ClassicalDedekindReals.sig_forall_dec`
    and `FunctionalExtensionality.functional_extensionality_dep`.
  * C42_derivative, C42_regular, C42_equation, C42_power_refuted, C42_elementwise_power_refuted: these two,
    `ClassicalDedekindReals.sig_not_dec` and `Classical_Prop.classic`.
  * C75_*, C76_cash_karp_refuted, C76_polynomials_partial, C76_linear_partial, C77_*, C78_accept, C78_derivative_*, C79_*:
    `ClassicalDedekindReals.sig_forall_dec` and `FunctionalExtensionality.functional_extensionality_dep`.
  * C81_constants_are_evaluated_right_partial, C82_generated_code_computes_the_value_partial,
    C83_compile_time_and_run_time_agree_partial, C84_simplification_keeps_the_value_partial, C85_real_minimum,
    C85_real_maximum_partial, C85_real_maximum_refuted, C87_rounding, C87_integer_division_partial, C87_sign_max_min:
    `sig_forall_dec`, `sig_not_dec`, `functional_extensionality_dep` and `classic`, through Flocq's theorems on rounding.
* No axiom, parameter or hypothesis is added outside of a section; every section variable is a quantified variable of the
  theorems that use it. The parameters that stand for code outside of the model are therefore premises that can be read in
  the statements:
  * `mlir_ok`: what is assumed of MLIR's rewriting of affine expressions (it keeps the meaning, and the shape of d + c);
  * `rvalid`, `rmatch`: llvm::Regex;
  * `local_solver`: the options of the local matching are valid and complete (C28), for the matching and the reduction;
  * schedules: the orders in which parallel loops deliver results (`sched`, `psched`), any permutation;
  * `vdiff`, `ediff`: the callbacks of the index reduction, any function of a state;
  * `explicit_ok`, `good_cycles`: the explicit form of an equation and the search of cycles in a component (C97);
  * the inverse annotations of called functions (C39) and the constant folder `cfold` (C41).

## What is modelled

| Code | Model | Left out |
|---|---|---|
| Modeling/Range, Point, MultidimensionalRange | RangeModel, MDRangeModel | machine integers, printing, hashes but C50 |
| Modeling/RTree | RTreeModel | parent pointers (implied by ownership), copy and move of trees |
| Modeling/IndexSet | IndexSetModel, IndexSetIterModel | the rank-mismatch assertions, printing; `llvm::sort` is any sorting |
| Modeling/AccessFunction*, DimensionAccess* | AccessModel | MLIR's simplifier (parameter), printing |
| Modeling/MCIM, MCIMGroup* | MCIMModel | printing, shared ownership of the spaces |
| Modeling/LocalMatchingSolutions* | LocalMatchingModel | lazy generation (same order) |
| Modeling/Matching | MatchModel | traversable edges (a cache), the MCIM and IndexSet representations |
| Modeling/Pantelides | PantModel | addresses of vertices, dump |
| Modeling/Scheduling, *DependencyGraph, SCC* | SchedModel | Tarjan's components themselves (input of the order), R-tree of the writes (list) |
| BaseModelica/IR/Dialect.h WritesMap | WritesMapModel | R-tree (list of entries) |
| Transforms/EquationExplicitation, BaseModelicaToFunc loops | LoopModel | everything but the executed iterations |
| IR/Attributes, Ops, Dialect: ranges and subscripts | SubscriptModel | real and mixed ranges |
| Transforms/InvertibleOpInterfaceImpl, Ops.cpp distribution | SymModel | types, arrays |
| Ops.cpp EquationTemplateOp::explicitate, grouping | GroupModel | types, arrays; constant folder is a parameter |
| Transforms/DerivableOpInterfaceImpl, ForwardAD | DerModel | arrays, calls, casts, statements |
| Transforms/ScheduleParallelization | ParModel | MLIR's IR |
| IR/DerivativesMap, Transforms/DerivativesMaterialization, DerivativesInitialization | DerMapModel | characters of the text form, MLIR's encodings |
| Lexer, Parser/BaseModelica/StateMachine | LexerModel | positions, messages, std::pow |
| Parser/BaseModelica/Parser.cpp, expressions | ParserModel | positions, messages |
| Parser/BaseModelica/Parser.cpp, equations and statements; setters of IfEquation, WhenEquation, AssignmentStatement | BlockParserModel | positions, messages |
| Parser/BaseModelica/Parser.cpp, classes and files | ClassParserModel | positions, messages, the tree of redeclarations |
| Transforms/RungeKutta, EulerForward | RKModel | floating point (exact rationals and reals), schedule partitioning, the shape of the IR but for C80 |
| IR/Ops folds and patterns, IR/Dialect most generic type, BaseModelicaToArith | ArithModel | arrays, constants of iN and fN, functions of the C library but rounding and square root (parameter), overflow of index |
| Lowering of statements, BaseModelicaToCF | StmtModel | expressions are functions of the names they read; subscripted, nested and multiple destinations, call and when statements, creation of variables and their default values |
| Transforms/EquationAccessSplit, ScalarRangesEquationSplit, SingleValuedInductionElimination, SCCSolvingBySubstitution; Ops.cpp setIndices, getWriteAccesses, cloneWithReplacedAccess | EqModel | array-valued accesses and their additional subscripts, subscripts of more than one induction, inductions of reductions, the search of the cycles and createSCCs (any function of the equations), cloneAndExplicitate (C39) |
| Lowering/CallLowerer (custom functions), Ops.cpp CallOp::verifySymbolUses, VariablesDependencyGraph, DefaultValuesDependencyGraph, Transforms/FunctionDefaultValuesConversion | CallModel | types and records, derivative functions, calls of names that are no functions, statements other than assignments (StmtModel), the assertion that the graph has no cycles |
| Transforms/CallCSE, EquationExpressionOpInterfaceImpl.cpp isEquivalent | CseModel | types, calls with several results, the order in which operations are sorted within a template, expressions other than numbers, variables, inductions, operations, calls and reductions |
| Lowering of equations (sections, for, equalities, if), Transforms/EquationSidesSplit, EquationInductionsExplicitation, EquationTemplatesCreation | ForModel | the inference of types (parameter), when equations, ranges that are arrays, 64-bit wrap-around of bounds |
| Transforms/ExplicitStartValueInsertion, ModelAlgorithmConversion | SecModel | arrays (inductions of the equations, broadcast start values), names of the functions, discrete variables (which the language starts from `pre`) |
| AST/BaseModelica/Modification.cpp (start, fixed, each), ModelLowerer::lowerVariableAttributes, BindingEquationConversion, ExplicitStartValueInsertion, ExplicitInitialEquationsInsertion, InitialConditionsSolving (choice of the start equations) | InitModel | records; expressions are functions of the values of the variables, and equations of sections are sets of values |
| Transforms/PureFunctionInlining | InlineModel | types, loops and `else`, the order in which calls are replaced and the exclusion of recursive functions (any calls may be replaced), records |
| Transforms/VariablesPruning, Modeling/ArrayVariablesDependencyGraph | PruneModel | the order of the SCCs (only the set of reached vertices counts), erasing templates, write accesses (an equation that contains its matched variable has one), the entries of the derivatives map of removed variables are left as in the code |
| Transforms/VariablesPromotion | PromoteModel | access functions are functions of the iteration with the set they reach (C52, C57), the SCCs are given in any order (C60), inverseMap selects the iterations that write the elements (C17), the order of the promoted variables, erasing templates |
| Transforms/ReadOnlyVariablesPropagation | PropagateModel | regions inside operations, types, the failure of a task; a step (one copied operation, or one replaced read) is atomic; each task works on its region only |
| Transforms/FunctionScalarization, Lowering/CallLowerer getVectorizedResultTypes, VectorizableOpInterfaceImpl | VectorCallModel | element types and casts, several results, derivative functions; functions are total |
| Lowering/SubscriptLowerer, RangeBoundariesInference, ViewAccessFolding (TensorExtractOpPattern), IR/Ops TensorViewOp and TensorExtractOp patterns, BaseModelicaToTensor views and slice insertions | SliceModel | overflow, real ranges, ViewAccessFolding's TensorViewOpPattern, out-of-bounds accesses, the value's sizes in an insertion |
| Transforms/Scheduling addStartEquations | StartOrderModel | WritesMap and access functions (cells instead), the parameters of the schedule, an empty list of blocks |
| Lowering/ComponentReferenceLowerer, Transforms/RecordInlining reads (replaceRecordGetters, VariableOpUnpackPattern) | RecordRefModel | sizes (ranks only), errors' texts, values with several users, start, default and binding equations of records |
| Lowering/AssignmentStatementLowerer, Transforms/RecordInlining assignments (VariableSetOpUnpackPattern, VariableComponentSetOpUnpackPattern, replaceVariableComponentSetOp) | RecordAssignModel | sizes (ranks only), casts of values, several destinations |
| Transforms/RecordInlining calls (unpackCallArg, CallResultUnpackPattern, unpackResultType) | RecordCallModel | one value used twice in a call (the second use is visited after the call is erased), sizes, subscripts between a record and its use |
| Transforms/SchedulersInstantiation, BaseModelicaToFunc EquationCallOpLowering, RuntimeToLLVM SchedulerAddEquationOpLowering | ParRunModel | the runtime library (assumed: runs every entry once, in order inside an entry that is not independent), steps that are not atomic, merged lists of accesses |
| Transforms/RuntimeVerifiableOpInterfaceImpl, BaseModelicaToArith RangeSizeOpLowering and comparisons | RtCheckModel | MLIR's pass that places the checks, the runtime's assert function, integers compared with the Real zero, arrays of indices |
| Codegen/Conversion/BaseModelicaToLinalg (binary operators, transpose, power) | ArrayOpsModel | the operations of linalg (their documented meaning is taken), bufferization (whether memory is zeroed), rounding, vectorized unary functions |
| Codegen/Lowering/ArrayGeneratorLowerer, CallLowerer (fill, ndims, size), BaseModelicaToTensor (from_elements, broadcast, size, ndims, fill) | ArrayGenModel | ranges that are not constants, the conversion of elements to Real, zeros, ones, identity, diagonal, linspace and symmetric (runtime library) |
| Conversion/BaseModelicaToRuntime (metadata operations), RuntimeModelMetadataConversion | MetadataModel | the operands of the switch over the boxes of a variable are references into a growing vector and dangle with three boxes or more (RuntimeModelMetadataConversion.cpp:621-634; the model has the intended values); iteration order inside the groups of variables with the same number of boxes; global strings; conversion of values to double |
| BaseModelica/Transforms/FunctionUnwrap, FunctionMangling | UnwrapModel | bodies of functions other than their calls; attributes other than inline; the order in which the driver visits functions is that of a list; SymbolTable::insert is MLIR's, modelled from its documentation and source |
| BaseModelica/Transforms/DerivativesInitialization | DerInitModel | components of records; broadcast of the start value; the body of the equation is reduced to the variable that it sets to zero |
| VariableFilter, BaseModelicaToRuntime filter use | VFModel | POSIX regular expressions (parameter) |

The layers above the index sets use their specification (`bset`, BoxSetModel.v, or lists of points) in place of the R-tree.
Where the index sets of the code do not meet it (C08 to C11, C15 to C17), the upper layers inherit the defect, and the
theorems do not show it. Not modelled at all: the code generation to LLVM, the runtime, the solvers
IDA and KINSOL, the driver, the remaining transforms.

## Findings

Each of these is a theorem with a concrete run of the model (the name is in brackets).

* Range and index sets: a box compares equal to a point wrongly, `&&` for `||` [C49]; adding many points can use a freed
  node [C08_additions]; a removed point may stay, or a freed node be used [C09_removals, C09_removals_defined]; overlapping
  boxes are stored by the list constructor [C10_disjoint], so that the iteration repeats points and the size is wrong
  [C15_iteration], containment is wrong [C11_contains_set], compact ranges overlap [C17_compact], hashes and order of equal
  sets differ [C50_hash, C53_compare]; two empty sets may be different [C16_equality].
* R-tree: bulk loading breaks the lower bound of the nodes [C18_bulk], removal may use a freed node [C18_removal], index set
  removal breaks the upper bound [C18_index_set_removal].
* Access functions: the image is too large when a dimension is used twice [C20_image]; three defects of the inverse image
  [C22_*]; composition loses accesses [C23_combine]; equality zips the results [C24_equal]; negative floor divisions and
  dependent iteration spaces [C52_*].
* Incidence matrices: five histories after which the matrix is not what was set [C25_*]; sum and difference [C26_*];
  restriction [C54_*]; local matching with ranges or several functions [C28_*].
* Matching: setIndices [C29_*]; paths accepted together may overlap [C30_together], since filterCandidateAugmentingPaths
  overwrites the touched indices of a node that a path goes through twice; hence a match may succeed without a matching or
  fail with one [C32_*]; the leaf matching may trip an assertion [C31_crash].
* Index reduction: a variable may be differentiated twice in an index [C48_variables]; the loop may not end, and run()
  never returns false [C62_end]; indices of an equation differentiated later are dropped [C63_next]; unneeded variables are
  differentiated [C64_needed]; the derivatives of the visited equations are never worked on, so the reduction of a chain of
  three integrators stops too early [C65_reduced].
* Dependencies and schedule: [C33_*], [C34_outside], [C37_*]; a scalar written twice keeps its last writer only
  [C38_scalar]; backward loops are off by one [C36_backward] and the ranges of a set are run in the order of the tree
  [C36_ranges].
* Front-end and folding: [C43_*], [C44_*], [C45_*], [C46_*], [C56_materialize], [C57_*], [C58_*]; elseif in
  expressions is rejected, `.a` and every missing operand violate an assertion, `(a, )` loses its second output and `(a b)`
  is accepted [C66_*, C67_ends, C68_only].
* Parser of equations and statements: an if equation with elseif writes its branches into a
  vector of no elements (IfEquation::setElseIfEquations resizes another one); no when
  equation can be read, since it must end with `end if`; no when statement can be read,
  since `loop` is expected in place of `then`; a call statement without arguments and a
  block that is not closed violate an assertion [C69_*, C70_*, C71_ends].
* Parser of classes: after `public` or `protected`, a component that follows a nested class makes the parser loop for
  ever, and so does `initial` that is followed by neither `equation` nor `algorithm`, and the end of the file; initial
  algorithms, initial equations after an algorithm, the annotation of a class right after a component, dimensions such
  as `2 + n`, `annotation()` and nested pure functions are rejected; a number in place of a type, `model M = ...`,
  `redeclare` and `replaceable` violate an assertion; `der(g)` without variables is accepted [C72_*, C73_*, C74_only].
* Integrators: the stages of a Runge-Kutta step read the elements of the same array, the other states and the algebraic
  variables from before (or after) the step, so that coupled systems are integrated with a method of order one or worse;
  the tableau of cash-karp has two wrong weights (250/521 for 250/621, 13535/55296 for 13525/55296) and order zero; the
  error keeps its sign, so that negative differences count as zero; after a step the derivatives are computed with the
  algebraic variables from before it, and with an operation that uses its own result when the time occurs; a model
  without derivatives computes nothing [C75_* to C80_*].
* Arithmetic: scalar `.-` adds; `./` of Integers truncates; an if-expression with an Integer first and a Real second
  gives code that does not verify; `true > false` is false at run time (i1 is signed) and true at compile time; a NaN is not
  different from a number at run time; the conversion of the Integer 2 to Boolean is true when folded and false when
  computed, that of true to index is 1 or -1, that of the Real 1.0 to Boolean is undefined; x + 0 and 0 * x are simplified also where they differ; `2 ^ (-1)` folds to 0;
  folded `div` and `mod` are wrong beyond 53 bits; the maximum of Reals that are not positive is 2^-1022; a reduction over
  an empty range can visit one value; the most generic type depends on the order of its arguments [C81_* to C88_*].
* Statements: `for i in a:s:b` takes the step for the bound and the bound for the step (the loop lowering reads the range's
  arguments as begin, end, step, the parser stores them as written), so it visits wrong values or never ends; the bound of a
  `for` is evaluated before every turn, so a body that assigns it changes the number of turns; `for i in .., j in ..` makes two
  loops one after the other, each knowing only its own index; every `while` whose body does not end in `break` or `return` is
  refused, because the yield put at the end of the body is not erased when the branch is added; `if .. else ..` whose first
  block holds a loop, an `if`, a `break` or a `return` is refused, because only the `else` block is converted; statements
  after a `break` or a `return` are refused [C91_*_refuted, C92_*_refuted].
* Equations: the cut by accesses fails an assertion for x[i] = x[1-i] + x[0], and without assertions leaves iterations that
  are matched with nothing [C93_*_refuted]; the elimination of a single-valued induction computes the write accesses of the
  new equation with the indices of the old one, and fails an assertion when it is not the last one [C94_single_valued_refuted];
  a restricted equation keeps in its match the elements reached by other accesses [C95_restriction_refuted]; replacing a read
  of one element, from an array equation, by an equation that determines several makes an equation without iterations
  [C96_constant_read_refuted]; an equation whose replacement is not possible, because the other one writes x[i, i], is lost
  while success is reported; a component whose solution is given up keeps copies of some equations [C97_*_refuted].
* Calls: one that names all its arguments in an order that is not that of the inputs passes them in the written order, because
  only calls with missing arguments are reordered; written in Modelica, a named argument violates an assertion and a call that
  leaves out an input with a default is refused; a default of an output or protected variable that reads an input, or a variable
  without a default, makes the visit of the dependency graph follow a null pointer [C98_*_refuted, C99_reads_input_refuted].
* Repeated calls: the grouping keeps, for each induction of the first call, only the first induction paired with it, so
  f(x[i], y[j]) after f(x[k], y[k]) is replaced by the element of f(x[i], y[i]). The calls of an equation with several ranges
  enter a group once per range: they are erased twice, or replaced by subscripts that exist for one range only. The
  inductions of a reduction are never compared, so sum(i - j) equals sum(j - i), and a call that uses one is copied into an
  equation that lacks it [C100_*_refuted].
* Equations of the source: an empty loop, a loop with a negative step or bound, a loop up to a parameter, an equation between
  arrays without elements, and an if equation each end the compilation with a failed assertion or an unreachable
  statement [C101_*_refuted].
* Algorithm sections: a section that assigns a variable whose start value reads a parameter is not compiled, because the
  start value becomes a default of the function [C102_start_reads_refuted].
* A parameter with a start value but no binding and no `fixed` gets no initial equation, although `fixed` is true by default for parameters, so its value is not determined [C103_parameter_start_refuted].
* `fixed = true` is dropped when no start value is written (the language then gives zero) [C103_fixed_without_start_refuted].
* A parameter with both a binding and a fixed start value gets two equations and has no solution when they differ [C103_binding_and_start_refuted].
* An array of `fixed` values that are not all equal violates an assertion [C103_fixed_array_refuted].
* The `each` kept for a start value is that of the first attribute in the list, whatever its name [C103_each_refuted].
* Inlining: a default value of an input that reads another input reads the variable of the caller with that name [C104_default_reads_refuted]; so does a region, such as that of a sum [C104_region_refuted].
* Inlining: the default values of outputs and protected variables are not looked at, and a null value is used [C104_output_default_refuted, C104_protected_default_refuted].
* Inlining: an assignment to an element replaces the whole array by the element [C104_subscript_refuted].
* Inlining: a conditional return does not prevent inlining, and the statements after it always count [C104_return_refuted].
* Pruning: the graph of what the outputs need does not contain the reads of start values; the start value of a needed variable that reads a parameter no needed equation reads is left with a variable that is not declared any more [C105_start_refuted].
* Promotion to parameters: an access is checked through the equations that write some of the elements it reaches; an access that reaches a state and a constant element passes, and the variable that reads it is made a parameter although it varies [C106_mixed_access_refuted].
* Promotion to parameters: for an array whose elements are written by equations without iterations, the equations are taken out of the main system and no initial equation is made of them; the values are lost [C106_elements_lost_refuted].
* Propagation of read-only variables: the regions are handled in parallel and the operations of a binding equation are copied while the task of that equation may be replacing reads in it; a copy can be left with an operand of another region [C107_race_refuted], or an erased operation is used [C107_erased_refuted]. `parameter Real a = 5; parameter Real b = -a;` and any reader of b are enough.
* Calls for each element: the pass reads the size of the first argument at the index of the argument (0) for every dimension, so two arrays of equal known sizes are refused unless all their extra dimensions have one size [C108_matrices_refuted]; sizes not known to the types are never compared [C108_runtime_sizes_refuted]; room for a result of unknown size is taken from the sizes of the first argument [C108_dynamic_result_refuted].
* Slices: the canonicalizer merges a view of a view by putting the subscripts one after another, so the row `(x[1:n])[k]` of a square matrix becomes the column `x[1:n, k]` [C109_merge_refuted], and an element of a slice becomes an invalid access [C109_merge_extract_refuted] (inlining a function called with a slice and the propagation of parameters make such accesses before a canonicalizer runs); an assignment to a range with a negative step starts at its end and goes on beyond it [C109_write_refuted]. isSlicingSubscription adds where it should subtract; the extraction pattern is not hurt, the view pattern only applies to views without subscripts.
* Start values: start equations that read nothing the blocks compute are put at the start of the block one by one, so in the reverse of their order [C110_reversed]: `x(start = p)` after `p(start = 3)`, with no equation for p, takes the value p had before [C110_chain_refuted]. A start expression that depends on a later block than the one that writes the variable overwrites the computed initial value, with only a warning [C110_overwritten_refuted]. If there is no block at all, processInitialModel returns before the start equations are scheduled (not modelled).
* Records, references: a subscript in the middle of a reference is used for the first dimension of everything before, `a.b[2].c` reads `a[2].b.c` for an array a [C111_middle_refuted]; with fewer subscripts than dimensions on the last name they are used for the last dimensions, `r.m[2]` is a column while `m[2]` is a row [C111_last_refuted]; a component of something that is not a record is accepted and ignored [C111_not_record_refuted]; reads of components of components end up with a variable that no longer exists, in every order of the unpackings, because the reads the pass creates are not put in its table [C111_nested_refuted].
* Records, assignments: `r[k] := x` with a record x drops the index and assigns every record of the array [C112_index_refuted]; `a.b := x` with a record x drops a, and assigns the components of another variable b [C112_nested_refuted]; `a.b[k].c := x` with an array x assigns the whole of a.b.c, because the counts of subscripts are shifted by one [C112_array_refuted]; with four names and a subscript the counts go past the end of the subscripts [C112_long_refuted].
* Records, calls: in `(r, z) := f()` with a record r the variable z gets a component of r, since the counter of the new results is not advanced for records [C113_results_refuted]; the same happens inside one record result with a record before a scalar [C113_inside_refuted]; a record result with a component that is an array gets a type that is not valid [C113_array_component_refuted]; an argument that is an array of records ends in a failed cast [C113_array_argument_refuted].
* Scheduler: each box of an equation's index set is registered as an equation of its own, also when the indices depend on each other, so the boxes may run concurrently or in the other order and read values that are not yet computed [C114_boxes_refuted].
* Run-time checks of slices: of a range only the number of elements is compared with the size of the dimension, so x[5:6] of an array with three elements passes [C115_range_refuted].
* Run-time checks of assignments to slices: only the shapes are compared; x[7,:] := v of a matrix with two rows passes [C115_row_refuted].
* Run-time checks of SubscriptionOp: one index per dimension of the array is read, so a subscription with fewer indices (made for calls for each element with array results, FunctionScalarization.cpp:372) reads past the operands [C115_short_refuted].
* Products of arrays: linalg.dot, vecmat and matmul add to a destination that is a tensor.empty, so the product is right only if that memory happens to contain zeros (BaseModelicaToLinalg.cpp:892-896, 1000-1097) [C116_memory_refuted].
* Products of a vector and a matrix with an unknown number of columns: the destination gets the number of rows (lines 956-957) [C116_dynamic_refuted].
* Scalars with arrays: the scalar is not converted to the element type (or the destination has the wrong one), so 2 * x with an Integer literal and a Real array gives an invalid operation; array * scalar has no lowering [C116_mixed_refuted].
* Quotients of Integer arrays are truncated although the result is Real (unlike the scalar operator) [C116_division_refuted].
* Powers of matrices: the loop starts from the matrix of ones instead of the identity, so each row of the result is the sum of the rows of the power [C116_power_refuted].
* Array constructors with indices: the indices are not declared when the expression is translated, which happens once; {i for i in 1:3} is refused, or repeats the value of a variable i outside (ArrayGeneratorLowerer.cpp:196-215) [C117_index_refuted].
* Array constructors: only the first element gives the sizes, so {{1,2},{3,4,5},{6}} is accepted and the values move to other rows (line 36 has a TODO) [C117_ragged_refuted].
* Array constructors whose elements are array-valued expressions other than constructors give an invalid operation [C117_array_element_refuted]; ranges other than 1:n trip an assertion [C117_range_refuted].
* size(x) of an array with two or more dimensions: the loop goes over the dimensions of the result, so only the first size is stored (BaseModelicaToTensor.cpp:463-476) [C117_size_refuted].
* Derivative numbers: the positions of the derivatives count the reserved variables, every other list skips them, so after a variable named __a the derivative of x is announced as another variable (BaseModelicaToRuntime.cpp:712-716) [C118_derivative_refuted].
* A user variable whose name begins with two underscores is taken for one of the compiler and is never described or printed (Dialect.cpp:802) [C118_names_refuted].
* A call for each element of an array, of a function in a package, is rebuilt with the results of the function, so its result loses its dimensions before the loop over the elements is made (FunctionUnwrap.cpp:75-76, Ops.cpp:10927-10932) [C119_elementwise_refuted].
* A function in a package loses its attributes, such as the annotation to be inlined, when it is moved to the top (FunctionUnwrap.cpp:61) [C119_inline_refuted].
* Mangled function names are not compared with the names of other classes: a function f and a model _Mf get the same symbol (FunctionMangling.cpp:36-39) [C119_clash_refuted].
* Symbolic manipulation: [C40_zero], [C41_*], [C42_*]. Derivatives map: [C47_*], [C59_*], [C60_walks].

Seen while reading, and not stated as theorems: the time derivative of CallOp is unreachable; `1.5eE5` is a literal;
setFromObjects reads out of bounds for some sizes; `isInvertible` is off by one where it cannot be reached; the
`contains(IndexSet)` loop pushes the wrong node; `VAFSolutions` compares with `>=`; filter elements need no semicolon.
