{"id": "C01", "title": "Partition answers connectivity exactly", "statement": "After any sequence of construction/reset, insert, merge and find calls on opengm::Partition, two elements have the same find() result if and only if they are related by the reflexive-symmetric-transitive closure of the pairs that were merged since the last reset; both overloads of find agree, return a member of the queried element's class, never read out of bounds and always terminate; queries do not change any later answer.", "quantifier": "all initial sizes, all finite histories of reset/insert/merge/find with element indices below numberOfElements()", "why_tests_cant": "the property ranges over every history; union by rank with path compression rewrites parents on every query, so a bad interleaving can only be excluded by an invariant", "anchors": ["include/opengm/datastructures/partition.hxx: Partition::find, merge, insert, reset"]}
{"id": "C02", "title": "Partition set count and labelings are consistent", "statement": "At any time numberOfElements() is the initial size plus all insertions, numberOfSets() is the number of equivalence classes, representatives() lists exactly one member per class in ascending order, representativeLabeling() numbers those representatives 0..numberOfSets()-1 bijectively, and elementLabeling() gives two elements the same label iff they are in the same class, with labels in [0,numberOfSets()).", "quantifier": "all histories of reset/insert/merge/find", "why_tests_cant": "counting classes is a global statement over an unbounded number of merges", "anchors": ["include/opengm/datastructures/partition.hxx: numberOfSets, representatives, representativeLabeling, elementLabeling"]}
{"id": "C03", "title": "disjoint_set answers connectivity and class sizes", "statement": "After any sequence of join/find/size calls on opengm::disjoint_set, find(x)==find(y) iff x and y are connected by joins, size(x) is the number of elements connected to x, numberOfSets() is the number of classes and representativeLabeling numbers one representative per class from 0.", "quantifier": "all sizes and all join/find/size histories with indices in range", "why_tests_cant": "unbounded histories with in-place path updates", "anchors": ["include/opengm/utilities/disjoint-set.hxx: disjoint_set::find, join, size, numberOfSets, representativeLabeling"]}
{"id": "C04", "title": "RandomAccessSet is a set kept sorted", "statement": "After any history of insert/range-insert/erase/clear/assign, RandomAccessSet contains exactly the keys a mathematical set would contain, its iteration order is strictly increasing with respect to Compare, insert reports 'inserted' iff the key was absent and returns the position of the key, find/count/erase/lower_bound/upper_bound agree with membership.", "quantifier": "all key types with a strict weak (total) order, all histories", "why_tests_cant": "holds for all histories; binary search is only right on a sorted vector, so the invariant must survive every operation", "anchors": ["include/opengm/datastructures/randomaccessset.hxx: insert, erase, find, count, lower_bound, upper_bound, assignFromSet"]}
{"id": "C05", "title": "ChangeablePriorityQueue is a priority map", "statement": "After any history of push/pop/changePriority/deleteItem/reset/setPriorities that never exceeds maxSize distinct items, contains(i), size(), empty() and priority(i) agree with the map from items to last pushed priority, top() is a contained item of minimal priority and pop() removes exactly that item.", "quantifier": "all capacities, all comparator orders that are strict weak orders, all legal histories", "why_tests_cant": "heap positions and the inverse index table must stay mutually inverse through arbitrary histories", "anchors": ["include/opengm/utilities/queues.hxx: ChangeablePriorityQueue"]}
{"id": "C06", "title": "FiFoQueue is first-in first-out within its capacity", "statement": "FiFoQueue behaves like a FIFO queue of the declared maximal size: as long as at most maxSize elements are stored at a time, front/pop return elements in push order, empty() and size() agree with the number stored and no access is out of bounds.", "quantifier": "all capacities and push/pop/clear histories", "why_tests_cant": "the buffer position grows with the history, not with the number of stored elements, so failure needs a long enough history", "anchors": ["include/opengm/utilities/queues.hxx: FiFoQueue"]}
{"id": "C07", "title": "Partition numbering is a faithful, history independent index", "statement": "Partitions::label2Index(l) is below BellNumber(order), two labelings of the same order get the same index iff they induce the same partition of the positions, every index below BellNumber(order) is attained, getPartition(n,l) decodes to a labeling with index n, and the index does not depend on which orders were requested earlier through the shared static table.", "quantifier": "all label vectors of every supported order, all prior histories of requests", "why_tests_cant": "quantifies over all labelings and all histories of a process-wide static table", "anchors": ["include/opengm/utilities/partitions.hxx: Partitions::label2Index, label2Number, number2Index, getPartition, increment, buildPartitions"]}
{"id": "C08", "title": "Generalized Potts functions depend only on the induced partition", "statement": "PottsGFunction(l) is unchanged by any injective relabeling of the labels, setByLabel(l,v) changes the value of exactly the labelings inducing the same partition as l, and isPotts() is true iff the function distinguishes only 'all labels equal' from the rest.", "quantifier": "all orders 1..11, all shapes, value tables and label vectors", "why_tests_cant": "label vectors are unbounded and two separate code paths (order<=4 and >4) must implement the same law", "anchors": ["include/opengm/functions/pottsg.hxx: PottsGFunction::operator(), setByLabel, isPotts"]}
{"id": "C09", "title": "Shape walkers visit every coordinate exactly once in the documented order", "statement": "Starting from zero, the k-th state of ShapeWalker is the k-th coordinate tuple in first-coordinate-fastest order, so that size() increments enumerate every tuple of the shape exactly once; ShapeWalkerSwitchedOrder does the same with the last coordinate fastest; SubShapeWalker enumerates exactly the tuples agreeing with the fixed coordinates, subSize() of them; DoubleShapeWalker/TripleShapeWalker keep the sub-coordinates equal to the projections of the joint coordinate.", "quantifier": "all dimensions and all shapes with positive extents; sorted fixed coordinates", "why_tests_cant": "unbounded dimension and extents", "anchors": ["include/opengm/utilities/indexing.hxx: ShapeWalker, ShapeWalkerSwitchedOrder, SubShapeWalker, DoubleShapeWalker, TripleShapeWalker"]}
{"id": "C10", "title": "Operations satisfy the algebra the inference code relies on", "statement": "Adder and Multiplier are associative and commutative with the advertised neutral element and inverse operation; Minimizer/Maximizer select the best element, bop is the strict order matching op, and their neutral element never wins against a value; in-place and out-of-place forms of every operation agree.", "quantifier": "all operand values", "why_tests_cant": "laws over all values; the in-place variants are separate code", "anchors": ["include/opengm/operations/adder.hxx", "include/opengm/operations/multiplier.hxx", "include/opengm/operations/minimizer.hxx", "include/opengm/operations/maximizer.hxx", "include/opengm/operations/integrator.hxx", "include/opengm/operations/logsumexp.hxx", "include/opengm/operations/and.hxx", "include/opengm/operations/or.hxx"]}
{"id": "C11", "title": "GraphicalModel::evaluate is the combination of all factors", "statement": "gm.evaluate(x) equals the OperatorType-combination, over all factors that were added, of the factor's function evaluated at the labels of the factor's variables in order; it does not depend on how functions are shared or on which function type stores them.", "quantifier": "all models built by any sequence of addVariable/addFunction/addSharedFunction/addFactor, all labelings", "why_tests_cant": "quantifies over all construction histories and labelings", "anchors": ["include/opengm/graphicalmodel/graphicalmodel.hxx: GraphicalModel::evaluate, addFunction, addSharedFunction, addFactor"]}
{"id": "C12", "title": "Factor/variable adjacency is exact and symmetric", "statement": "After any successful construction, factor f lists variable v iff v lists factor f; numberOfFactors(v) counts each such factor once; factorOfVariable(v,.) is strictly increasing; factorOrder() is the maximal number of variables of a factor; isValidIndexSequence-accepted factors have strictly increasing in-range variables; building with addFactorNonFinalized followed by finalize yields the same structure as addFactor.", "quantifier": "all construction histories", "why_tests_cant": "global structural invariant over unbounded histories", "anchors": ["include/opengm/graphicalmodel/graphicalmodel.hxx: addFactor, addFactorNonFinalized, finalize, numberOfFactors, factorOfVariable, variableOfFactor"]}
{"id": "C13", "title": "Rejected factors leave the model unchanged", "statement": "If addFactor throws because the variable indices are not strictly increasing or out of range, the model is observably unchanged (same number of factors, adjacency, order and evaluation).", "quantifier": "all models, all invalid index sequences", "why_tests_cant": "exception safety quantifies over all partial states reached before the throw", "anchors": ["include/opengm/graphicalmodel/graphicalmodel.hxx: addFactor"]}
{"id": "C14", "title": "Copies of a model are equivalent and independent", "statement": "A copied or assigned GraphicalModel has the same variables, labels, factors, adjacency and value at every labeling, and later modification of either model does not change the other; conversion to a different function type list preserves evaluate().", "quantifier": "all models, all later histories", "why_tests_cant": "aliasing bugs appear only through later mutation", "anchors": ["include/opengm/graphicalmodel/graphicalmodel.hxx: copy constructor, operator=, CopyFunctions"]}
{"id": "C15", "title": "Movemaker's energy is always the energy of its state", "statement": "After any history of initialize/move/moveOptimally/moveOptimallyWithAllLabelsChanging/reset, value() equals gm.evaluate(state()) and valueAfterMove(...) equals the energy of the state with those variables relabeled, without changing the state.", "quantifier": "all models with a group-like operator, all histories of moves with distinct variable indices and valid labels", "why_tests_cant": "incremental energies drift only through histories; a stale internal buffer is invisible until a later call", "anchors": ["include/opengm/inference/movemaker.hxx: Movemaker"]}
{"id": "C16", "title": "moveOptimally finds the best joint relabeling", "statement": "moveOptimally(vars) leaves the state at a joint relabeling of vars (others unchanged) that is not worse than any other joint relabeling and returns its energy; moveOptimallyWithAllLabelsChanging is optimal among relabelings changing every listed variable.", "quantifier": "all models, states, non-empty lists of distinct variables with at least one label", "why_tests_cant": "optimality over an exponential, unbounded set of relabelings", "anchors": ["include/opengm/inference/movemaker.hxx: moveOptimally, moveOptimallyWithAllLabelsChanging"]}
{"id": "C17", "title": "Bruteforce returns a global optimum", "statement": "Bruteforce::infer visits every labeling exactly once and returns a labeling whose value is not worse than that of any labeling, together with that value.", "quantifier": "all models with at least one variable and positive label counts", "why_tests_cant": "global optimality over all labelings of all models", "anchors": ["include/opengm/inference/bruteforce.hxx: Bruteforce::infer, arg, value"]}
{"id": "C18", "title": "ICM never worsens and ends in a local optimum", "statement": "From any starting point ICM terminates in a labeling whose value is not worse than the start and that cannot be strictly improved by relabeling any single variable (and, in FACTOR mode, by jointly relabeling the variables of any factor).", "quantifier": "all models, all starting points", "why_tests_cant": "termination and local optimality depend on a work-list of flags over an unbounded run", "anchors": ["include/opengm/inference/icm.hxx: ICM::infer, inferWithVariableMoves"]}
{"id": "C19", "title": "Dynamic programming is exact on forests", "statement": "DynamicProgramming::infer followed by arg returns an optimal labeling for every model whose factors have order at most two and whose graph is a forest, for any choice of roots, and value() is its value. getNodeInfo of a root gives, for each of its labels, the best value with this label and a labeling that attains it.", "quantifier": "all forests, all label counts, all factor tables, all root choices", "why_tests_cant": "optimality over all labelings of all trees", "anchors": ["include/opengm/inference/dynamicprogramming.hxx: DynamicProgramming::infer, arg"]}
{"id": "C20", "title": "Fixing variables preserves energies", "statement": "For the model built by GraphicalModelManipulator in FIX mode, the value of any labeling of the reduced model equals the value in the original model of that labeling extended by the fixed labels; the connected submodels' values combine to the same value; modifiedState2OriginalState realises the extension. After lockAndTentacelElimination the value of a labeling of the reduced model is the best value among its extensions, which modifiedState2OriginalState attains.", "quantifier": "all models, sets of fixed variables, labels and labelings, and histories of fix/free/lock/unlock", "why_tests_cant": "index translation between two models over all subsets", "anchors": ["include/opengm/graphicalmodel/graphicalmodel_manipulator.hxx"]}
{"id": "C21", "title": "Function views evaluate to the function they view", "statement": "ViewFunction, ViewFixVariablesFunction, ScaledViewFunction, ViewConvertFunction and ModelViewFunction return the viewed function at the corresponding coordinates (with fixed positions filled in, scaled, or offset), and report the matching dimension, shape and size.", "quantifier": "all functions, fixed position sets, coordinates", "why_tests_cant": "position look-up tables range over all subsets of positions", "anchors": ["include/opengm/functions/view.hxx", "include/opengm/functions/view_fix_variables_function.hxx", "include/opengm/functions/scaled_view.hxx", "include/opengm/functions/view_convert_function.hxx", "include/opengm/functions/modelviewfunction.hxx"]}
{"id": "C22", "title": "Function serialization round-trips", "statement": "For every serializable function type, serialize writes exactly indexSequenceSize() indices and valueSequenceSize() values, and deserializing them yields a function with the same shape and the same value at every coordinate.", "quantifier": "all functions of every registered type", "why_tests_cant": "round-trip for all parameter values and shapes", "anchors": ["include/opengm/functions/explicit_function.hxx", "include/opengm/functions/potts.hxx", "include/opengm/functions/pottsn.hxx", "include/opengm/functions/pottsg.hxx", "include/opengm/functions/sparsemarray.hxx", "include/opengm/functions/constant.hxx", "include/opengm/functions/singlesitefunction.hxx", "include/opengm/functions/absolute_difference.hxx", "include/opengm/functions/squared_difference.hxx", "include/opengm/functions/truncated_absolute_difference.hxx", "include/opengm/functions/truncated_squared_difference.hxx"]}
{"id": "C23", "title": "Closed-form summaries of functions equal the exhaustive ones", "statement": "min(), max(), sum(), product() and minMax() of a function equal the minimum, maximum, sum and product of its values over all coordinates of its shape, whether computed by the generic sweep or by a closed form.", "quantifier": "all shapes with positive extents and all parameter values", "why_tests_cant": "closed forms must agree with an unbounded sweep", "anchors": ["include/opengm/functions/potts.hxx: min, max, sum, product, minMax", "include/opengm/functions/function_properties_base.hxx: min, max, sum, product, minMax, accumulate", "include/opengm/functions/constant.hxx"]}
{"id": "C24", "title": "Property predicates decide the named class", "statement": "isPotts, isGeneralizedPotts, isSubmodular, isSquaredDifference, isAbsoluteDifference and their truncated versions return true iff the function's value table has the named form.", "quantifier": "all functions of the admitted dimensions and shapes", "why_tests_cant": "quantifies over all value tables", "anchors": ["include/opengm/functions/function_properties_base.hxx"]}
{"id": "C25", "title": "Sparse functions behave like dense tables", "statement": "SparseFunction evaluates to the inserted value at inserted coordinates and to the default elsewhere; coordinateToKey and keyToCoordinate are mutually inverse on the shape.", "quantifier": "all shapes, insertion histories, coordinates", "why_tests_cant": "mixed-radix encoding over unbounded shapes and histories", "anchors": ["include/opengm/datastructures/sparsemarray/sparsemarray.hxx"]}
{"id": "C26", "title": "FactorGraph connectivity predicates are exact", "statement": "isAcyclic, isConnected, isChain, variableVariableConnection, variableFactorConnection, factorFactorConnection, numberOfNthOrderFactorsOfVariable, variableAdjacencyMatrix/List and factorAdjacencyList report exactly the graph-theoretic facts about the bipartite factor graph.", "quantifier": "all factor graphs", "why_tests_cant": "reachability and acyclicity over unbounded graphs", "anchors": ["include/opengm/graphicalmodel/graphviews/factorgraph.hxx"]}
{"id": "C27", "title": "FunctionIdentification orders consistently", "statement": "operator< on function identifiers is a strict total order compatible with == and with >, <=, >=.", "quantifier": "all pairs/triples of identifiers", "why_tests_cant": "order axioms quantify over triples", "anchors": ["include/opengm/graphicalmodel/graphicalmodel.hxx: FunctionIdentification"]}
{"id": "C28", "title": "Sequence containers behave like std::vector", "statement": "After any history of construction, push_back, resize, reserve, clear, assign, copy construction and assignment, FastSequence and BufferVector hold the elements std::vector would hold (for defined elements), never access memory outside their buffers and free exactly what they allocated.", "quantifier": "all histories, all stack capacities", "why_tests_cant": "memory safety of capacity bookkeeping depends on the history", "anchors": ["include/opengm/datastructures/fast_sequence.hxx", "include/opengm/datastructures/buffer_vector.hxx"]}
{"id": "C29", "title": "unsignedIntegerPow is modular exponentiation", "statement": "unsignedIntegerPow(b,e) equals b^e modulo 2^64.", "quantifier": "all 64-bit bases and exponents", "why_tests_cant": "2^128 inputs", "anchors": ["include/opengm/utilities/unsigned_integer_pow.hxx"]}
{"id": "C30", "title": "Accumulation tracks the best value and its state", "statement": "After feeding any non-empty sequence of (value,state) pairs to Accumulation with Minimizer/Maximizer, value() is the best value fed and state() is the state of the first pair attaining it.", "quantifier": "all sequences of values including infinite ones", "why_tests_cant": "all sequences", "anchors": ["include/opengm/utilities/accumulation.hxx"]}
{"id": "C31", "title": "Sorted search and sort helpers are exact", "statement": "findInSortedSequence finds the position of the key iff present, isSorted decides sortedness, doubleSort permutes both sequences by the same permutation and sorts the first.", "quantifier": "all sequences", "why_tests_cant": "unbounded sequences", "anchors": ["include/opengm/utilities/sorting.hxx"]}
{"id": "C32", "title": "Label spaces report what was added", "statement": "After any history of addVariable calls every space reports the number of variables added and for each the label count it was added with (or throws if the count is not representable), and isSimpleSpace holds iff all counts are equal.", "quantifier": "all histories and constructors", "why_tests_cant": "all histories", "anchors": ["include/opengm/graphicalmodel/space/discretespace.hxx", "include/opengm/graphicalmodel/space/simplediscretespace.hxx", "include/opengm/graphicalmodel/space/static_simplediscretespace.hxx", "include/opengm/graphicalmodel/space/grid_space.hxx", "include/opengm/graphicalmodel/space/vector_view_space.hxx"]}
{"id": "C33", "title": "Property queries of a factor are answered by its own function", "statement": "binaryProperty, valueProperty and everything built on them consult the very function the factor evaluates, whatever the number of function types of the model.", "quantifier": "all models, all type list lengths, all factors", "why_tests_cant": "look-up by function type goes through a dispatch table that must be right for every type list length", "anchors": ["include/opengm/graphicalmodel/graphicalmodel_function_wrapper.hxx: FunctionWrapper::binaryProperty, valueProperty, getValue"]}
{"id": "C34", "title": "Assigning a factor object makes it equal to its source", "statement": "After f1 = f2 for two Factor objects, f1 refers to the same model, variables and function as f2 and has the same value at every labeling, also when the factors belong to different models.", "quantifier": "all pairs of factors", "why_tests_cant": "a pointer that is not assigned is invisible unless the two factors belong to different models", "anchors": ["include/opengm/graphicalmodel/graphicalmodel_factor.hxx: Factor::operator="]}
{"id": "C35", "title": "The sub-model of a move is the full model restricted to the chosen variables", "statement": "For a Movemaker in any reachable state and any increasing sequence of variables, the sub-model handed to an inference algorithm by proposeMoveAccordingToInference has one variable per chosen variable with its number of labels, and its value at any labels equals, up to a constant that does not depend on the labels, the value of the full model where the chosen variables have those labels and all others keep their current labels. If the inference algorithm is exact, the proposed labels are a best joint move.", "quantifier": "all models, operations with the stated laws, Movemaker histories, increasing variable sequences, labels of the sub-model and earlier evaluations of the sub-model", "why_tests_cant": "Whether a factor is inside, on the border of or outside the sub-model depends on the model, on the chosen variables and on the order in which factors are visited; tests fix a few models.", "anchors": ["include/opengm/inference/movemaker.hxx: Movemaker::proposeMoveAccordingToInference, addFactorsToSubGm", "include/opengm/functions/view_fix_variables_function.hxx: ViewFixVariablesFunction"]}
{"id": "C36", "title": "Functions evaluate to their documented form and compare by value", "statement": "Potts, difference, truncated, N-ary Potts, constant and table functions return the documented value at every coordinate and report dimension, extents and size; two functions of one type are equal (operator==) iff they have the same extents and the same value everywhere.", "quantifier": "all parameters, shapes and coordinates", "why_tests_cant": "values over unbounded shapes; 32-bit accumulation of sizes", "anchors": ["include/opengm/functions/potts.hxx", "include/opengm/functions/pottsn.hxx", "include/opengm/functions/constant.hxx", "include/opengm/functions/explicit_function.hxx", "include/opengm/functions/absolute_difference.hxx", "include/opengm/functions/squared_difference.hxx", "include/opengm/functions/truncated_absolute_difference.hxx", "include/opengm/functions/truncated_squared_difference.hxx", "include/opengm/functions/function_properties_base.hxx: operator=="]}
{"id": "C37", "title": "Multi-dimensional arrays: views, iterators, assignment and resizing show the right entries", "statement": "Whatever history of sub-views, reshapes, bindings, squeezings, permutations, transpositions and shifts derives a view from a block of memory, each coordinate (and each index) of the view names exactly the entry of the block the operations prescribe, different coordinates name different entries, and permutations lose none. Iterators moved by any history of steps and jumps are at the entry with the number the moves add up to. Copies, assignments (also between overlapping views), element-wise operations and resizing give every entry the value it should have, computed from the values before the call, and change nothing else.", "quantifier": "all shapes, orders, histories of view operations, iterator moves, memories and element-wise functions", "why_tests_cant": "strides, offsets and carries depend on all extents and on the whole history; overlap depends on addresses; loop nests differ by number of dimensions", "anchors": ["include/opengm/datastructures/marray/marray.hxx: View, Marray, Iterator, Geometry, AssignmentOperatorHelper, operate, resize"]}
{"id": "C38", "title": "Arithmetic, accumulation and restriction of factors are pointwise right", "statement": "Combining two factors by any operation (out of place, in place, or a factor with itself) yields a factor of exactly the variables of both whose value at every labeling is the operation applied to the two values; element-wise operations apply to every value; accumulating over some variables yields the factor of the remaining variables whose value is the accumulation over all labels of the others, accumulate with states finds the best value and a labeling that has it; fixVariables restricts, subtractOffset shifts the least value to zero, normalize divides by the sum (or subtracts the least value), and copies and conversions preserve all values.", "quantifier": "all factors, sorted variable lists, numbers of labels, value types and operations", "why_tests_cant": "variables interleave in arbitrary ways; coordinates of operands are projected from those of the result by walkers, the in-place forms read what they write", "anchors": ["include/opengm/functions/operations/operator.hxx: BinaryOperationImpl, BinaryOperationInplaceImpl, UnaryOperationImpl, UnaryOperationInplaceImpl, ComputeViAndAShape", "include/opengm/functions/operations/accumulator.hxx: AccumulateAllImpl, AccumulateSomeImpl, AccumulateSomeInplaceImpl", "include/opengm/graphicalmodel/graphicalmodel_factor.hxx: IndependentFactor"]}
{"id": "C39", "title": "The Lazy Flipper ends, never worsens the labeling and searches its neighbourhood completely", "statement": "For every model whose variables have at least two labels, every parameter, every history of legal calls and every visitor, infer ends, the labeling it leaves is legal and is the previous one or strictly better, and value() is the value of arg(). The first infer that the visitor does not stop leaves a labeling that cannot be improved by changing at most maxSubgraphSize variables, connected or not; with maxSubgraphSize at least the number of variables it is globally optimal. A zero bound and a model without variables are refused.", "quantifier": "all graphical models with finite values, parameters, starting points, histories of calls and visitors", "why_tests_cant": "the subgraphs are generated lazily in a forest with successor links, and revisits are driven by two tag lists; whether a subgraph is ever missed depends on the graph, the order of flips and all earlier rounds", "anchors": ["include/opengm/inference/lazyflipper.hxx: LazyFlipper::infer, setMaxSubgraphSize, setStartingPoint, generateFirstPathOfLength, generateNextPathOfSameLength, activateInfluencedVariables, firstActivePath, nextActivePath, Forest, Tagging, Adjacency"]}
{"id": "C40", "title": "GraphCut finds an optimal labeling of a submodular binary model", "statement": "Given a max-flow library that returns minimum cuts, GraphCut on a model of binary variables whose factors have at most two variables and are submodular (supermodular for maximization) returns a globally optimal labeling, whether built from a model or factor by factor, for every positive scale and every tolerance; if factors miss submodularity by at most the tolerance, the value is off by at most the sum of what they miss. Models with other variables or with factors of too high order are refused. Third order factors and repeated calls of infer keep the result optimal.", "quantifier": "all models of the kind, orders of factors, scales, tolerances and minimum-cut solvers", "why_tests_cant": "the cut represents the energy only up to a constant that depends on all factors; a wrong edge shows only in models where it decides", "anchors": ["include/opengm/inference/graphcut.hxx: GraphCut::GraphCut, addFactor, addEdgeCapacity, tripleId, infer, arg"]}
{"id": "C41", "title": "Alpha-beta swap never worsens the labeling and its moves are optimal", "statement": "Given a max-flow library that returns minimum cuts, for every model of factors with at most two variables, equal label numbers and factors that are submodular on every pair of labels, every history of legal calls and every visitor, AlphaBetaSwap::infer returns and leaves a legal labeling that is not worse than before. On a new object the result is at least as good as every exchange of the labels 0 and 1 in the starting point; with two labels it is globally optimal. When infer ends by itself the labeling is optimal with respect to swap moves. Models with larger factors are refused.", "quantifier": "all models of the kind, minimum-cut solvers, iteration bounds, starting points, histories of calls and visitors", "why_tests_cant": "each move is a minimum cut in a graph built from the current labeling; whether the graph represents the energy of all exchanges depends on every factor and label", "anchors": ["include/opengm/inference/alphabetaswap.hxx: AlphaBetaSwap::infer, increment, addUnary, addPairwise, reset, setStartingPoint"]}
{"id": "C42", "title": "Alpha expansion never worsens the labeling and is exact for two labels", "statement": "Given a max-flow library that returns minimum cuts, for every model with at least one variable, factors of at most two variables, equal label numbers and Potts-like pairwise factors, every legal parameter, history of calls and visitor, AlphaExpansion::infer returns and leaves a legal labeling that is not worse than before. With two labels and submodular factors the result is globally optimal. The labeling after construction is the one the parameter asks for, reset restores it, setStartingPoint and setState set it. For metric pairwise factors infer never worsens the labeling and ends in a labeling that no expansion improves. Models with larger factors are refused.", "quantifier": "all models of the kind, minimum-cut solvers, parameters, starting points, histories of calls and visitors", "why_tests_cant": "each move is a minimum cut in a graph with auxiliary nodes that depends on the current labeling; errors show only for certain combinations of labels and values", "anchors": ["include/opengm/inference/alphaexpansion.hxx: AlphaExpansion::AlphaExpansion, infer, reset, setStartingPoint, setState, incrementAlpha, setInitialLabel*, setLabelOrder"]}
{"id": "C43", "title": "Saving a model and loading it again gives the same model", "statement": "For every model built by legal calls, hdf5::save followed by hdf5::load gives a model with the same label numbers, the same factors with the same variables in the same order, functions of the same types with the same shapes and values, the same factors at each variable, the same order and the same energy of every labeling. The model loaded into may have a longer or reordered function type list, and may already be in use. A file with functions of an unknown type or of another format version is refused with an exception.", "quantifier": "all models built by any legal history, function type lists, label numbers, value types and target models", "why_tests_cant": "the file concatenates the serializations of all functions, and positions, type numbers and counts have to agree for every mixture of functions and every pair of type lists", "anchors": ["include/opengm/graphicalmodel/graphicalmodel_hdf5.hxx: save, load, SaveAndLoadFunctions::save, SaveAndLoadFunctions::load, GetFunctionRegistration", "include/opengm/datastructures/marray/marray_hdf5.hxx: save, createGroup, openGroup"]}
{"id": "C44", "title": "Belief propagation is exact on models without cycles", "statement": "On every model whose factor graph has no cycle, inference by belief propagation ends, and marginal and factorMarginal return the exact marginals: the accumulation, over all labelings that agree on the variables, of the values of the model, up to one common value for all labels. Without normalization and for a connected model this value is the neutral element; with normalization the returned values accumulate to the neutral element and the common value is the accumulation over all labelings. This holds for every operation and accumulation that form a commutative semiring (sums and minima, products and sums, ...), whatever interrupted inferences and resets came before.", "quantifier": "all acyclic models with factors of any order, all label numbers, all semirings, all histories of inference and reset, all visitors", "why_tests_cant": "the order in which messages are sent depends on the graph, and the value of a message is a sum over all labelings of a part of the graph", "anchors": ["include/opengm/inference/messagepassing/messagepassing.hxx: MessagePassing::infer, inferAcyclic, marginal, factorMarginal, reset", "include/opengm/inference/messagepassing/messagepassing_bp.hxx: VariableHullBP, FactorHullBP", "include/opengm/inference/messagepassing/messagepassing_operations_withFunctors.hxx: operate, operateF, normalize", "include/opengm/inference/messagepassing/messagepassing_buffer.hxx: MessageBuffer"]}
{"id": "C45", "title": "Belief propagation in rounds is exact on models without cycles", "statement": "If the schedule for acyclic models is switched off, the parallel schedule without damping returns the exact marginals of every variable and every factor of a model without cycles after as many steps as the model has variables, and the sequential schedule after one step more, for every order of the variables, whatever interrupted inferences and resets came before (so although reset keeps old messages).", "quantifier": "all acyclic models with factors of any order, all semirings, both schedules, all orders of the variables, all histories of inference and reset", "why_tests_cant": "the number of steps a message needs depends on the graph, and old messages from earlier calls must be replaced everywhere", "anchors": ["include/opengm/inference/messagepassing/messagepassing.hxx: MessagePassing::inferParallel, inferSequential, convergence", "include/opengm/inference/messagepassing/messagepassing_bp.hxx: propagateAll"]}
{"id": "C46", "title": "Belief propagation is safe on every model", "statement": "On every model, with or without cycles, and for every damping, convergence bound, number of steps, schedule (also the one for acyclic models, when it is forced on a model with cycles), normalization and visitor, every history of inference and reset calls ends and stays inside its arrays, and afterwards the marginals of every variable and every factor can be read and have one value for each label and each tuple of labels.", "quantifier": "all well-formed models, all parameters, all histories of inference and reset, all visitors", "why_tests_cant": "the arrays of messages, counters and positions are cross-linked through the graph, and the loop that sends messages runs until its queues are empty", "anchors": ["include/opengm/inference/messagepassing/messagepassing.hxx: MessagePassing::infer, inferAcyclic, inferParallel, inferSequential, reset, marginal, factorMarginal", "include/opengm/inference/messagepassing/messagepassing_bp.hxx: VariableHullBP, FactorHullBP"]}
{"id": "C47", "title": "Labelings read off belief propagation", "statement": "After a complete inference on a model without cycles, arg returns an optimal labeling, also where several labelings are optimal and where values closer than the tolerance are taken as ties; constrainedOptimum returns a best labeling, or a best one among those with one given label; the labels of modeFromMarginal each belong to an optimal labeling and together form one if there is only one. arg for another than the first best labeling throws.", "quantifier": "all acyclic models with factors of any order, all ordered semirings, all schedules, all histories of inference and reset, all tolerances", "why_tests_cant": "labels are fixed one after another through shared factors, and a wrong choice in a tie shows only on particular models", "anchors": ["include/opengm/inference/inference.hxx: Inference::constrainedOptimum, modeFromMarginal, modeFromFactorMarginal", "include/opengm/inference/messagepassing/messagepassing.hxx: MessagePassing::arg"]}
{"id": "C48", "title": "Functions with learnable weights", "statement": "A Potts, unary or summed function with learnable weights has, for every labeling, the value of the sum over its weights of the weight times the gradient it reports; the reported gradient is the derivative of the value. The constructors of the unary function refuse unequal numbers of features and weights and repeated weights. Writing and reading such a function gives a function with the same values under the same weights. A weight regularizer is zero, the sum of absolute values or the sum of squares times lambda; constraints on weights report the sizes and bounds they were added with.", "quantifier": "all rings of values, all weights, features and weight indices, all label numbers, all labelings, all histories of added constraints", "why_tests_cant": "gradient and value are computed by different code from shared offset tables; a wrong offset shows only for particular numbers of features per label", "anchors": ["include/opengm/functions/learnable/lpotts.hxx: LPotts", "include/opengm/functions/learnable/lunary.hxx: LUnary", "include/opengm/functions/learnable/lweightedsum_of_functions.hxx: LWeightedSumOfFunctions", "include/opengm/graphicalmodel/weights.hxx: Weights, WeightRegularizer, WeightConstraints"]}
{"id": "C49", "title": "A* search", "statement": "AStar::infer returns; the labelings it finds are different and each of them is not beaten by any labeling that was not found earlier, so the first one is optimal and the k-th one is k-th best; without a visitor that stops it, it finds numberOfOpt_ labelings unless there are fewer or one is worse than the objective bound; value() and arg() give the found labelings and bound() is not worse than the value of any labeling not yet found.", "quantifier": "all models, all values with a weak order the operation respects (sums with plus infinity included), all node orders, all acyclic sets of tree factors, all visitors, all ways a heap breaks ties, all numbers of labelings asked for, all numbers of calls of infer", "why_tests_cant": "a heuristic that is not a lower bound loses the optimum only on particular value tables and orders; tests compare with brute force on a few random models", "anchors": ["include/opengm/inference/astar.hxx: AStar"]}
{"id": "C50", "title": "Hard constraint functions", "statement": "A linear constraint function, label order function or function limiting the number of labels has the valid value exactly where its linear constraints hold (up to the tolerance) and the invalid value elsewhere; challenge names exactly the violated constraints of a labeling with the amount of each violation, in order, and challengeRelaxed those of any assignment of numbers to the indicator variables in the reported order, which contains each indicator variable once; the order function is valid exactly if the first label does not come after the second and the other one exactly if at most so many labels are used; min and max bound the values; indicator variables are ordered by their comparisons; the functions survive serialization.", "quantifier": "all shapes, all lists of linear constraints over and, or and not indicator variables, all coefficients, bounds and operators, all labelings, all assignments of numbers, all tolerances, all std::sort implementations, all label orders, all limits", "why_tests_cant": "a wrong lookup from constraint to indicator variable only shows for constraints that share indicator variables in another order, and a comparison that is no strict weak ordering only for three particular indicator variables; tests use a handful of fixed constraints", "anchors": ["include/opengm/functions/constraint_functions/linear_constraint_function.hxx: LinearConstraintFunction", "include/opengm/functions/constraint_functions/label_order_function.hxx: LabelOrderFunction", "include/opengm/functions/constraint_functions/num_labels_limitation_function.hxx: NumLabelsLimitationFunction", "include/opengm/datastructures/linear_constraint.hxx: LinearConstraint", "include/opengm/datastructures/indicator_variable.hxx: IndicatorVariable"]}
{"id": "C51", "title": "Soft constraint functions", "statement": "A label cost function has as its value the sum of the costs of the labels that occur in the labeling, each counted once, and a sum constraint function the distance of the sum of the selected coefficients to the bound times lambda, with one table of coefficients for all variables or one for each; both survive serialization.", "quantifier": "all shapes or all numbers of variables and labels, all costs, coefficients, bounds and factors, all labelings", "why_tests_cant": "the loops stop early once all labels were seen and the offsets of the tables depend on all extents before a variable: only shapes with different extents and labelings in particular orders tell them apart", "anchors": ["include/opengm/functions/soft_constraint_functions/label_cost_function.hxx: LabelCostFunction", "include/opengm/functions/soft_constraint_functions/sum_constraint_function.hxx: SumConstraintFunction"]}
{"id": "C52", "title": "Decompositions of graphical models", "statement": "However a decomposition is built through its interface, every variable of a submodel is a copy of exactly one variable of the model and every subfactor connects copies of the variables of its factor; reorder only renumbers the copies in the order of the variables, complete only adds unary subfactors until every copy of a variable with several copies has one, and isValid is true exactly if every variable and factor occurs. The decomposer returns such a decomposition for every model: given lists of factors give these submodels, the tree is one submodel without cycles containing every factor once, the spanning trees have no cycles and each contains every variable, k-fans contain the inner variables, their neighbours and the factors at inner variables, open blocks the factors inside and closed blocks the factors touching the given sets; tree, spanning trees, k-fans and numbered closed blocks cover the model, also after reorder and complete, and trees stay trees.", "quantifier": "all numbers of variables, all factors over increasing sequences of variables, all histories of calls with existing indices, all lists of factors, all sets of variables, all k and numbers of blocks", "why_tests_cant": "the numbering of copies depends on the whole history and on the order in which factors merge components; tests only run the decomposer inside inference on small grids", "anchors": ["include/opengm/graphicalmodel/decomposition/graphicalmodeldecomposition.hxx: GraphicalModelDecomposition", "include/opengm/graphicalmodel/decomposition/graphicalmodeldecomposer.hxx: GraphicalModelDecomposer"]}
{"id": "C53", "title": "Dual decomposition with the subgradient method", "statement": "For every model and every decomposition that covers its factors, construction and every sequence of calls of infer succeed if the solver of the submodels returns labelings. At any time the submodels with their dual variables together are the model: labelings of the submodels that agree with a labeling of the model have its value in total. value() is the value of the labeling that arg() returns, the best of all labelings constructed so far: the majority of the copies, the labelings of submodels with all variables and, if wanted, the majority overlaid with the labeling of a submodel. With an exact solver bound() bounds the value of every labeling, bounds improve with the iterations, agreement of all copies means that arg() is optimal and bound() equals value(), and a loop that stops for accuracy has found a value within the accuracy. With nonnegative steps s the bound after n iterations misses the bound that any other dual variables offer by at most (squared distance + number of tables times sum of s^2) / (2 sum of s).", "quantifier": "all models with factors over increasing variables, minimization and maximization, all decompositions the parameters can name (tree, spanning trees, blocks, fans, given sets), all histories of calls of infer, all solvers of the submodels, step sizes, accuracies, visitors that stop, all dual variables to compare with", "why_tests_cant": "the dual variables are the sum of all steps so far, and a wrong sign or weight only shows as a slightly wrong bound; tests compare the result with a known optimum on small grids", "anchors": ["include/opengm/inference/dualdecomposition/dualdecomposition_base.hxx: DualDecompositionBase::init, getBounds", "include/opengm/inference/dualdecomposition/dualdecomposition_subgradient.hxx: DualDecompositionSubGradient", "include/opengm/inference/dualdecomposition/dddualvariableblock.hxx: DDDualVariableBlock", "include/opengm/functions/modelviewfunction.hxx: ModelViewFunction"]}
{"id": "C54", "title": "Reduction of polynomials to quadratic energies", "statement": "For every sequence of calls of AddVars, AddTerm and AddUnaryTerm whose monomials have increasing variables that exist, ToQuadratic fills the solver with a quadratic energy over the variables of the polynomial and auxiliary ones. Minimized over the auxiliary variables it is the polynomial without its constant term, for every assignment. So a minimizer of the quadratic energy minimizes the polynomial, and labels that are persistent for the quadratic energy are persistent for the polynomial. ToQuadratic may be called again, although it changes the energy.", "quantifier": "all polynomials in 0/1 variables with rational coefficients of any sign and degree, all orders of the calls, all assignments, any number of calls of ToQuadratic", "why_tests_cant": "the auxiliary variables must be right for every assignment, and positive monomials create new ones while the records are traversed; tests check a few energies", "anchors": ["include/opengm/inference/fix-fusion/higher-order-energy.hpp: HigherOrderEnergy", "include/opengm/inference/fix-fusion/quadratic-rep.hpp: QuadraticRep"]}
{"id": "C55", "title": "Fusion moves and HQPBO never make a labeling worse", "statement": "FusionMove of two labelings returns a labeling that takes each label from one of the two and is not worse than the current labeling; it is the best of all such labelings if QPBO labels all variables. For a model with two labels per variable and factors of at most ten variables, and after every history of calls of infer and setStartingPoint on an HQPBO object, infer succeeds, arg is a labeling that is not worse than the one before, and it is optimal if QPBO labels all variables.", "quantifier": "all cliques or factors with any energies, all labelings, all histories of calls, every solver of quadratic energies whose labels are persistent", "why_tests_cant": "the coefficients of all subsets of a factor are computed by signs of parities and then reduced; a wrong sign shows only for some energies", "anchors": ["include/opengm/inference/fix-fusion/fusion-move.hpp: FusionMove, SetupFusionEnergy, GetFusedImage", "include/opengm/inference/hqpbo.hxx: HQPBO"]}
{"id": "C56", "title": "AlphaExpansionFusion never makes the labeling worse and ends at a local optimum", "statement": "For a model whose variables have the same number of labels and whose factors have at most ten variables, every legal parameter and every history of calls of infer, reset, setStartingPoint and setState, infer succeeds, arg is a labeling, and its energy is not greater than before. If QPBO labels all variables and infer ends before maxNumberOfSteps and is not stopped by the visitor, then no expansion move of any label decreases the energy; with two labels and the default start the result is optimal.", "quantifier": "all models with rational energies, all parameters (start labels, orders, random seeds, steps), all histories, all visitors, every solver whose labels are persistent", "why_tests_cant": "the loop counts unchanged moves over a cyclic order of the labels; whether all labels have been tried at the end depends on the history of the object", "anchors": ["include/opengm/inference/alphaexpansionfusion.hxx: AlphaExpansionFusion"]}
{"id": "C57", "title": "FusionMover returns a fusion that is not worse than its arguments, with its value", "statement": "For two labelings of a model, FusionMover's binary model has one variable with two labels for every variable with different labels, and its values are those of the fused labelings up to one constant. fuse (with any solver that returns labelings), fuseQpbo (for factors of at most two variables, whatever QPBO labels) and fuseFixQpbo (at most nine variables) return a labeling that takes each label from one of the arguments, is not worse than either of them, and the value returned is its value. With an exact solver fuse and fuseQpbo return the best of all fusions. HlFusionMover::fuse does the same with the solver it selects, and returns false with the first argument if the labelings are equal.", "quantifier": "all models, all pairs of labelings, all old contents of the mover's index vectors, all solvers of the binary model, all value types whose operation is a commutative group with a compatible strict weak order", "why_tests_cant": "the binary model consists of views that mix fixed and free variables, built in the order in which factors are met; solvers, label counts and factor orders vary without bound", "anchors": ["include/opengm/inference/auxiliary/fusion_move/fusion_mover.hxx: FusionMover::setup, fillSubModel, fuse, fuseQpbo, fuseFixQpbo, HlFusionMover::fuse"]}
{"id": "C58", "title": "Fusion based inference never worsens the labeling and ends at local optima of its moves", "statement": "For every history of calls of a FusionBasedInf object, arg() is a labeling, value() its value, and infer() does not make the labeling worse, whatever the visitor does, for every proposal generator that proposes labelings; the expansion, swap and random generators do so, and the up-down and two-label generators if every variable has at least two labels. If infer() ends because its rounds without improvement are used up and the fusion moves are solved exactly, then no expansion move improves the labeling for the expansion generator (with the default number of rounds or at least the number of labels), and no swap move improves it for the swap generator with at least k(k-1) rounds for k labels. Without setStartingPoint a variable starts with the best label of its last unary factor, or with label 0.", "quantifier": "all models, all histories of infer and setStartingPoint, all visitors, all seeds of the random generators, all solvers of the fusion moves, all value types whose operation is a commutative group with a compatible total order", "why_tests_cant": "the result depends on the whole sequence of proposals, which depends on the labelings found so far; local optimality speaks about all moves, exponentially many", "anchors": ["include/opengm/inference/fusion_based_inf.hxx: FusionBasedInf, proposal_gen::AlphaExpansionGen, UpDownGen, AlphaBetaSwapGen, RandomGen, Random2Gen"]}
{"id": "C59", "title": "ReducedInference solves the original problem whatever reductions are used", "statement": "For every combination of the reductions (labels known by partial optimality, tentacle elimination, connected components): after any calls of infer() with any visitors, arg() is a labeling and value() its value. If some optimal labeling has the labels that partial optimality reports and the algorithm for the reduced models is exact, then arg() is optimal after an infer() that no visitor stops. If the bounds of that algorithm are bounds of the reduced models, bound() is a bound of the model, and if they are tight, bound() is value(). A visitor that stops leaves the labeling of before. The method that is used for partial optimality is chosen by the labels, the order and the Potts property of the model; the one for binary models of higher order reports labels of a minimizer.", "quantifier": "all models, all combinations of the parameters, all sequences of infer() calls and visitors, all algorithms for the reduced models and all results of partial optimality, all value types whose operation is a commutative group with a compatible total order", "why_tests_cant": "optimality quantifies over all labelings of the original model, and the reduced models depend on which labels are fixed, which tentacles are found and how the rest falls apart", "anchors": ["include/opengm/inference/reducedinference.hxx: ReducedInference::infer, bound, value, arg, getPartialOptimalityByAutoSelection, getPartialOptimalityByFixsHOQPBO", "include/opengm/graphicalmodel/graphicalmodel_manipulator.hxx"]}
{"id": "C60", "title": "Reparametrized models: values, saving and loading, arc consistency", "statement": "A reparametrization moves values between the factors of several variables and the unary factors. Whatever is written to it or loaded into it, the reparametrized model gives every labeling the value it has in the original model if every variable that occurs in a factor of several variables has exactly one unary factor, and every other variable at most one. Writing one dual variable changes nothing else. What serialize() produces is loaded by deserialize() into any storage of the same model and gives the same reparametrization; sequences of another length are refused. If getArcConsistency() marks every variable, the labeling it returns is optimal, up to the tolerance of its comparisons. TRWS reparametrize(immovable) leaves the values of labelings unchanged, sets the dual variables of immovable labels to zero and leaves no pairwise value better than zero except between immovable labels.", "quantifier": "all models with factors of any order, all sequences of writes and loads, all labelings, both accumulation operations, all tolerances, all sets of immovable labels", "why_tests_cant": "preservation of values quantifies over all reparametrizations and all labelings; optimality under arc consistency quantifies over all labelings", "anchors": ["include/opengm/inference/auxiliary/lp_reparametrization.hxx: LPReparametrisationStorage, LPReparametrizer, ReparametrizationView", "include/opengm/inference/trws/trws_reparametrization.hxx: TRWS_Reparametrizer::reparametrize"]}
{"id": "C61", "title": "CombiLP: results, optimality and number of cycles", "statement": "CombiLP never gives a value worse than that of its LP solver, its value is the value of its labeling, and no labeling beats its bound. If the submodel solver is exact and does not fail, the visitor does not stop inference and as many cycles are allowed as the model has variables, the labeling is optimal and value and bound coincide. If the trees of the LP solver agree on all variables, the agreed labeling is optimal. getTreeAgreement() marks exactly the variables that have the same label in all trees.", "quantifier": "all models, all LP results, all reparametrizations that keep the values of labelings and for which the agreed labels are best in the factors with agreed variables only, all submodel solvers, all visitors, all numbers of cycles, both choices of reparametrization", "why_tests_cant": "optimality quantifies over all labelings of all models; the number of cycles quantifies over all ways in which the mask can grow", "anchors": ["include/opengm/inference/combilp.hxx: CombiLP::infer, CombiLP_base::infer, DilateMask, GetMaskBoundary, LabelingMatching", "include/opengm/inference/trws/trws_base.hxx: MaxSumTRWS::getTreeAgreement"]}
{"id": "C62", "title": "Gibbs sampling: best labeling, chain and marginals", "statement": "After any sequence of infer(), reset() and setStartingPoint() arg() is a labeling of the model, and the value of the chain is the value of its state. If there is a starting point, currentBestValue() is the value of arg(), and after infer() arg() is the best of the former arg() and of all labelings the chain has visited, whatever random numbers were drawn. GibbsMarginalVisitor counts, for each marginal, exactly the samples after burn-in with each combination of labels, and accepted and rejected samples add up.", "quantifier": "all models, all sequences of calls, all random numbers, all acceptance decisions, all sequences of samples and of added marginals", "why_tests_cant": "the guarantee quantifies over all random draws; tests see one seed", "anchors": ["include/opengm/inference/gibbs.hxx: Gibbs, GibbsMarginalVisitor", "include/opengm/utilities/random.hxx: RandomUniformInteger"]}
{"id": "C63", "title": "LPCplex: the linear program stands for the graphical model", "statement": "The linear program LPCplex builds has one point for each labeling, with an objective value that, plus the constant, is the labeling's value, and the points with integral variable entries are exactly those of the labelings; addConstraint() with distinct variables, given by lpNodeVi() and lpFactorVi(), removes exactly the labelings that violate the constraint. So, after infer() with a solver that tells the truth, bound() is not beaten by any labeling that meets the constraints; with integer constraints, or if the solution is integral, arg() meets them, its value is the solver's, and it is optimal if the solver closed the gap. variable() and factorVariable() give consistent pseudo-marginals.", "quantifier": "all models with factors of any order, all sequences of addConstraint() and infer(), all truthful solvers, Minimizer and Maximizer, with and without integer constraints", "why_tests_cant": "correctness of a reduction quantifies over all models and all feasible points of the program", "anchors": ["include/opengm/inference/lpcplex.hxx: LPCplex, lpNodeVi, lpFactorVi, addConstraint, infer, arg, value, bound, variable, factorVariable"]}
{"id": "C64", "title": "SAT: value() tells whether all factors can be true", "statement": "For every model in which each variable has two labels and each factor two variables, infer() of the 2-SAT solver succeeds and value() is then true exactly if some labeling makes all factors true, which is the optimum of the model under And and Or; a factor with another number of variables makes infer() throw.", "quantifier": "all models with two labels per variable, all algorithms that find strongly connected components", "why_tests_cant": "satisfiability quantifies over all labelings of all models; the strong components of the implication graph have to reflect it", "anchors": ["include/opengm/inference/sat.hxx: SAT, infer, value"]}
{"id": "C65", "title": "SelfFusion: fusing what an inference shows never loses the best labeling used", "statement": "For every model, every sequence of labelings an inference shows with their values, every visitor, every fusion solver that returns labelings and every positive fuseNth, infer() of SelfFusion succeeds and arg() is then a labeling; the inference is cut short only if the user's visitor says so or if there was no progress in numStopIt calls; value() is never worse than the value of the first labeling shown; and if that first labeling is all zero, value() is the value of arg() and no labeling used, that is shown in a call whose number is a multiple of fuseNth, is better than arg().", "quantifier": "all models, operations with their laws, sequences of shown labelings, visitors, fusion solvers, parameters", "why_tests_cant": "the labelings come from an arbitrary other inference, and each fusion depends on all earlier ones", "anchors": ["include/opengm/inference/self_fusion.hxx: SelfFusion, FusionVisitor, infer, arg, value", "include/opengm/inference/auxiliary/fusion_move/fusion_mover.hxx: FusionMover"]}
{"id": "C66", "title": "InfAndFlip: the result is as good as the inference, the starting point, and all labelings nearby", "statement": "For every model whose variables have at least two labels, every inference that returns a labeling, and every history of calls, infer() of InfAndFlip succeeds; value() is then the value of the labeling arg(), which is as good as the labeling of the inference; unless the visitor stopped or maxSubgraphSize is zero, it is also as good as the starting point set last and as every labeling that differs from it in at most maxSubgraphSize variables, hence optimal if there are no more variables than that.", "quantifier": "all models with at least two labels per variable, operations with their laws, inferences, histories of calls, parameters", "why_tests_cant": "the guarantee compares the result with all labelings within a distance, and with an arbitrary inference", "anchors": ["include/opengm/inference/infandflip.hxx: InfAndFlip, setStartingPoint, infer, arg, value, bound", "include/opengm/inference/lazyflipper.hxx: LazyFlipper"]}
{"id": "C67", "title": "DMC: cutting a multicut problem into independent parts keeps the optimum", "statement": "For every multicut problem (as many labels as variables; factors of two variables that only distinguish equal from different labels) and every inference that returns labelings, infer() of DMC succeeds and arg() is a labeling; if the inference is exact, no two factors have the same variables, the threshold is not positive and no weight lies between it and zero, arg() is optimal. A factor that does not have two variables makes infer() throw.", "quantifier": "all multicut problems, thresholds, inferences", "why_tests_cant": "optimality compares with all labelings, and the parts are the sets of a union-find over all factors", "anchors": ["include/opengm/inference/dmc.hxx: DMC, infer, arg, value", "include/opengm/datastructures/partition.hxx: Partition"]}
{"id": "C68", "title": "PartitionMove ends in a partition no worse than its start that no single variable improves", "statement": "For every model with variables, the constructor of PartitionMove succeeds if every variable has at least as many labels as there are variables and every factor has no variable, or two variables and only distinguishes equal from different labels; otherwise it throws. Whatever the iteration order of the hash sets, infer() ends and arg() is a labeling. If no two factors have the same variables: before infer() two variables have the same label exactly if a chain of attractive factors connects them; infer() does not increase the value; afterwards giving one variable a label of its own lowers the value by less than 1e-10; and if the costs are integral no change of one label lowers the value.", "quantifier": "all models, all iteration orders of the hash sets", "why_tests_cant": "the claims range over all models and over the unspecified order of hash sets; that the loop ends needs a potential", "anchors": ["include/opengm/inference/partition-move.hxx: PartitionMove, infer, inferKL, solveBinaryKL, arg"]}
{"id": "C69", "title": "GreedyGremlin fixes every connected variable greedily", "statement": "For every model with variables, every starting labeling and every visitor, infer() of GreedyGremlin ends and arg() is a labeling. Variables that are not connected with variable 0 keep their label. In a connected model the variables are fixed one after the other, breadth first from variable 0, each with a best label for its factors among the variables reached so far, given the labels of those fixed before and the old labels of the others. On a tree with root 0 every variable has a best label given the label of its parent.", "quantifier": "all models, operations, accumulations, starting labelings, visitors", "why_tests_cant": "the claim compares with all labels of all variables in all models, and depends on the order in which a queue reaches the variables", "anchors": ["include/opengm/inference/greedygremlin.hxx: GreedyGremlin, infer, arg"]}
{"id": "C70", "title": "SwendsenWang moves clusters with detailed balance and remembers the best state", "statement": "For every model, initial state and random numbers, each iteration of infer() of SwendsenWang relabels, with one label, exactly the variables linked to one variable by edges that are turned on, or changes nothing; such variables have the same label and the same number of labels. After burn-in a move is accepted by the Metropolis-Hastings rule, which satisfies detailed balance. After any calls the state of the chain and arg() are labelings and markovValue() is the value of the state; without an initial state or after reset(), currentBestValue() is the value of arg() and arg() is the best of the initial state and the states accepted after burn-in. Edge probabilities are the same at both ends, zero for variables with different numbers of labels and otherwise within the allowed range.", "quantifier": "all models, operations, accumulations, conversions to probabilities, parameters, random numbers and histories of reset() and infer()", "why_tests_cant": "the claim holds for every sequence of random numbers, and detailed balance is a statement about probabilities that no finite sample settles", "anchors": ["include/opengm/inference/swendsenwang.hxx: SwendsenWang, infer, reset, arg, markovState, markovValue, currentBestState, currentBestValue, computeEdgeProbabilities, cluster, move"]}
{"id": "C71", "title": "PrimalLPBound answers from its buffers as if it computed anew", "statement": "For every model with at most one factor per variable alone, every solver and every history of setVariable, getVariable, getVariableValue, getFactorValue, getFactorVariable and getTotalValue, each value is the one computed anew for the vectors that were set last: the inner product for a variable, the value of the transportation problem for a factor of two variables, and the sum of all for the model; an exception comes exactly if the solver throws or the order of a factor is not supported. For the vectors of a labeling the total value is the value of the labeling. getFactorVariable gives the solution that belongs to the current vectors and the factor that was asked for.", "quantifier": "all models, solvers and histories of calls", "why_tests_cant": "a stale buffer shows only for particular orders of calls, and the orders are unbounded", "anchors": ["include/opengm/inference/auxiliary/primal_lpbound.hxx: PrimalLPBound, setVariable, getVariable, getTotalValue, getFactorValue, getVariableValue, getFactorVariable, CheckDuplicateUnaryFactors", "include/opengm/inference/trws/utilities2.hxx: VariableToFactorMapping"]}
{"id": "C72", "title": "modelTrees finds the parts of the model that are trees", "statement": "For every model the constructor of modelTrees ends, every variable outside the trees has the number of variables as parent and tree, and every other variable leads over its parents, with each of which it shares a factor, to the root that treeOfVariable gives. Of two variables that share a factor one is the parent of the other exactly if there is no cyclic part of the model with both. Variables of one tree are connected, and in a model without cycles connected variables have the same tree. numberOfTrees, roots, treeOfRoot and nodes agree: the roots are numbered in ascending order and nodes lists the variables of every tree.", "quantifier": "all models", "why_tests_cant": "the graphs are unbounded, and the order in which leafs are taken decides which variable becomes a root", "anchors": ["include/opengm/utilities/modelTrees.hxx: modelTrees, numberOfTrees, treeOfVariable, parentOfVariable, roots, nodes, treeOfRoot"]}
{"id": "C73", "title": "The decompositions of TRWS have every factor once", "statement": "For every model with factors of one and two variables and one factor for every variable alone, the decomposition into monotone chains ends, its sub-models are chains of ascending variables with the factors between them, the variables that share no factor with another are sub-models of their own, every factor of two variables is in exactly one sub-model and every variable in at least one; the decomposition into edges has one sub-model for every factor of two variables; other models are refused. The decomposition of a grid has the columns and the rows with the factors between their variables, and every factor of the grid exactly once; every grid is recognised, other models are refused. The variable decomposition lists exactly the positions of every variable in the sub-models.", "quantifier": "all models", "why_tests_cant": "the models are unbounded, and a factor that is lost or counted twice shows only as a wrong bound", "anchors": ["include/opengm/inference/trws/trws_decomposition.hxx: Decomposition, MonotoneChainsDecomposition, GridDecomposition, EdgeDecomposition, ComputeVariableDecomposition, CheckDuplicateUnaryFactors, CheckForIsolatedNodes"]}
{"id": "C74", "title": "The solver of the sub-models of TRWS finds the best labeling of a sequence", "statement": "For every model, every sequence of its variables in which neighbours share a factor of two variables, all numbers of sequences by which the factors of one variable are divided, and every history of the calls InitMove, Move and MoveBack: Move returns, the objective value is the smallest energy of the sequence, and the labeling has this energy, in both directions, with and without the fast treatment of Potts factors. MoveBack after it leaves for every label of every variable the smallest energy of the labelings with this label. The constructor throws if the variables and factors are not a sequence. The energy that evaluate returns is that of the labeling.", "quantifier": "all models, sequences, histories of calls", "why_tests_cant": "sequences, labels and histories are unbounded, and a wrong message is a wrong bound that nothing else shows", "anchors": ["include/opengm/inference/trws/trws_subproblemsolver.hxx: SequenceStorage, FunctionParameters, DynamicProgramming, MaxSumSolver"]}
{"id": "C75", "title": "The visitor that takes times keeps a faithful protocol of a run and stops it at the limits", "statement": "For every run of an algorithm - begin, any number of steps with any values, bounds and times, end - and every interval of steps: the protocol has a row for begin, for every step whose number the interval divides, and for end, each with the number, value and bound of its call; times start with 0 and never decrease; the last time is the time since begin without that spent in the visitor. A step is answered with a stop only if it is recorded and value and bound are within the limit of the gap, or else the time exceeds its limit. An additional log has for every recorded step the value that was logged after it.", "quantifier": "all runs, values, clocks, intervals and limits", "why_tests_cant": "the number of steps, the readings of the clock and the places of log calls are unbounded; a time that is lost shows only as a run that takes longer than its limit", "anchors": ["include/opengm/inference/visitors/visitors.hxx: TimingVisitor", "include/opengm/utilities/timer.hxx: Timer"]}
{"id": "C76", "title": "Helpers for sorted sequences and the variable with three values do what their names say", "statement": "For every sequence in increasing order and every element: the search finds it iff it is there, at its first position; the test for increasing order is exact for every sequence; sorting two sequences by the first keeps every pair, puts the first in increasing order and leaves the rest of a longer second alone. A variable with three values made of any integer is in exactly one of the three states, and after any history of &= it is false iff false was given, else true iff true was given, in any order.", "quantifier": "all sequences, elements, sortings, integers and histories", "why_tests_cant": "lengths, repetitions and histories are unbounded, and the sorting of the standard library may order equal elements in any way", "anchors": ["include/opengm/utilities/sorting.hxx: findInSortedSequence, isSorted, doubleSort", "include/opengm/utilities/tribool.hxx: Tribool"]}
{"id": "C77", "title": "The starting point from a threshold is the labeling of the connected clusters", "statement": "For every model whose factors have two variables each, every finite weight for each factor and every threshold: two variables get the same label iff they are connected by factors whose weight exceeds the threshold; the labels are the numbers from 0 without gaps; what the result vector held before does not matter. If a factor does not have two variables, the call throws.", "quantifier": "all models with factors of two variables, weights, thresholds and results before", "why_tests_cant": "the number of factors and the paths that connect variables are unbounded", "anchors": ["include/opengm/inference/cgc/generate_starting_point.hxx: startFromThreshold"]}
{"id": "C78", "title": "The integer power and the loss function of one variable have the values they are named for", "statement": "For all numbers of 64 bits the integer power ends and returns the power modulo 2^64, hence the exact power where it fits. For all labels, true labels and multipliers every kind of loss is 0 at the true label, has the documented value at each other label, and none is negative if no multiplier is.", "quantifier": "all numbers of 64 bits; all labels, multipliers and kinds of loss", "why_tests_cant": "the sizes of functions of many variables are computed with the power, and there are 2^128 pairs of arguments", "anchors": ["include/opengm/utilities/unsigned_integer_pow.hxx: unsignedIntegerPow", "include/opengm/functions/unary_loss_function.hxx: UnaryLossFunction"]}
