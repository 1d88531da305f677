{"id": "C01", "title": "Variables have unique identities", "statement": "Every variable handed out by a variable group is a (hash, num_states) pair whose hash fits in a signed 64-bit integer; two different positions of a group never share a hash, and two NDVarArrays whose object ids differ modulo 2**32 never share one. (Ids that agree modulo 2**32 do collide: the guarantee is exactly modulo 2**32.)", "quantifier": "all object ids, all shapes up to the enforced 1e9 size limit, all pairs of positions, all pairs of groups", "why_tests_cant": "the collision space is the product of all ids and all sizes; a test sees a handful of allocator addresses", "anchors": ["pgmax/vgroup/vgroup.py: VarGroup.__post_init__", "pgmax/vgroup/varray.py: NDVarArray.__post_init__, variable_hashes", "pgmax/vgroup/vdict.py: variable_hashes"]}
{"id": "C02", "title": "NDVarArray indexing is row-major and bounds-checked", "statement": "va[i1,...,ik] returns the variable at the row-major position of the index in va.variables, with that position's number of states; each index may be negative (counted from the end) and any index out of range raises IndexError.", "quantifier": "all shapes, all full integer index tuples", "why_tests_cant": "unbounded shapes and indices", "anchors": ["pgmax/vgroup/varray.py: NDVarArray.__getitem__, variable_hashes", "pgmax/vgroup/vgroup.py: VarGroup.variables"]}
{"id": "C03", "title": "NDVarArray slicing returns exactly the sliced variables", "statement": "Indexing with a slice (or a tuple starting with a slice) returns the list of variables whose index lies in every slice, in row-major order, each equal to what integer indexing returns for it. A tuple that starts with an integer and does not choose a single variable returns the pair of arrays of hashes and numbers of states instead. Indexing raises IndexError for an empty tuple or too many indices, and otherwise the exception of the first bad index: IndexError for an integer out of range, ValueError for a zero step.", "quantifier": "all shapes, all tuples of integers and start/stop/step slices (including clipped and negative bounds)", "why_tests_cant": "unbounded shapes and slices", "anchors": ["pgmax/vgroup/varray.py: NDVarArray.__getitem__"]}
{"id": "C04", "title": "NDVarArray flatten/unflatten round-trip", "statement": "flatten accepts exactly data of shape `shape` or `shape + (max num_states,)` and rejects everything else with ValueError; unflatten(flatten(d)) returns d for per-variable data, and for per-state data returns d with every padded entry replaced by -inf; flatten(unflatten(f)) returns f. For per-state data this fails only when all variables have one state (the two layouts then have the same size). A vector is unflattened as one value per variable if it has that length, else as one value per state with -inf for the states a variable does not have, and anything else is refused with ValueError.", "quantifier": "all shapes, all per-variable state counts, all data", "why_tests_cant": "the state counts and data are unbounded; ragged padding only shows on particular shapes", "anchors": ["pgmax/vgroup/varray.py: NDVarArray.flatten, NDVarArray.unflatten"]}
{"id": "C05", "title": "VarDict lookup and flatten/unflatten round-trip", "statement": "A VarDict returns for each declared name its own variable and raises ValueError for undeclared names; flatten concatenates the values in declaration order and raises ValueError on unknown names or wrong shapes; unflatten(flatten(d)) gives back, for every name, exactly the data supplied for it. unflatten reads a vector as one value per name if it has that length, else as one value per state in declaration order; anything else is refused with ValueError. Data of the wrong kind (a mapping for an array of variables, an array for a VarDict) is refused.", "quantifier": "all name tuples without duplicates, all state counts, all data mappings", "why_tests_cant": "unbounded number of names and data", "anchors": ["pgmax/vgroup/vdict.py: VarDict.__getitem__, flatten, unflatten"]}
{"id": "C06", "title": "Variable states are laid out without gaps or overlap", "statement": "In a factor graph over any list of variable groups, each variable owns the contiguous block of num_states entries of the flat evidence array starting at its recorded start; blocks of different variables are disjoint, and together they cover [0, total number of states).", "quantifier": "all lists of distinct variable groups", "why_tests_cant": "quantifies over all graphs and all pairs of variables", "anchors": ["pgmax/fgraph/fgraph.py: FactorGraph.__post_init__, FactorGraphState"]}
{"id": "C07", "title": "Evidence writes are read back and isolated", "statement": "After setting evidence for a variable (or for a whole group with per-state data) reading any variable's evidence returns the data written for it if it was covered by the write, and its previous evidence otherwise; the array length never changes. Reading a variable that is not in the graph raises KeyError, writing it ValueError.", "quantifier": "all graphs, all sequences of writes, all data", "why_tests_cant": "a frame property over all other variables and all histories", "anchors": ["pgmax/infer/bp_state.py: update_evidence, Evidence.__getitem__, Evidence.__setitem__"]}
{"id": "C08", "title": "Evidence writes with the wrong amount of data", "statement": "What update_evidence does with data whose size is not the number of states it stands for: a single variable rejects any length other than its number of states or 1 (1 is broadcast); a whole NDVarArray given per-variable data (shape = va.shape) is NOT rejected: it silently overwrites the first size(va) flat entries, mixing states of different variables.", "quantifier": "all NDVarArrays with some multi-state variable, all data", "why_tests_cant": "a universally quantified error-handling claim", "anchors": ["pgmax/infer/bp_state.py: update_evidence", "pgmax/vgroup/varray.py: NDVarArray.flatten"]}
{"id": "C09", "title": "Order of updates in one update dictionary", "statement": "Applying the entries of an evidence or log-potentials update dictionary gives the same result in every order, provided the entries address disjoint variables/groups (jax.jit re-sorts dictionary keys by address-derived hashes). For overlapping entries (a group and one of its variables) the result does depend on the order.", "quantifier": "all permutations of all update dictionaries", "why_tests_cant": "the order depends on memory addresses, which a test cannot choose", "anchors": ["pgmax/infer/bp_state.py: update_evidence, update_log_potentials", "pgmax/vgroup/vgroup.py: VarGroup.__lt__"]}
{"id": "C10", "title": "EnumFactor accepts exactly well-formed factors", "statement": "EnumFactor(...) succeeds iff configurations are a 2D integer array with one column per variable, log potentials a float vector with one entry per row, and every entry is a legal state of its column's variable; otherwise it raises ValueError.", "quantifier": "all argument triples", "why_tests_cant": "all arrays of all shapes", "anchors": ["pgmax/factor/enum.py: EnumFactor.__post_init__"]}
{"id": "C11", "title": "Logical factors and wirings accept exactly well-formed inputs", "statement": "ORFactor/ANDFactor succeed iff there are at least two variables and all are binary. A LogicalWiring is accepted iff its factor indices take as many different values as there are factors, none is too large, and the offset is 1 or -1. The group constructors do not perform the variable check: an ORFactorGroup over non-binary variables is accepted and compiles into a wiring whose edge-state count disagrees with its var-states array.", "quantifier": "all variable lists, all index arrays", "why_tests_cant": "all sizes", "anchors": ["pgmax/factor/logical.py: LogicalFactor.__post_init__, LogicalWiring.__post_init__", "pgmax/fgroup/logical.py: LogicalFactorGroup"]}
{"id": "C12", "title": "EnumFactorGroup broadcasts potentials; what it validates", "statement": "An EnumFactorGroup with potentials given once, per factor, or omitted has, for factor f and configuration c, the shared, f's, or zero log potential; any other shape raises ValueError. The configurations themselves are not validated at construction or at compilation: an out-of-range configuration is compiled into a pointer to another variable's state.", "quantifier": "all numbers of factors and configurations, all potentials", "why_tests_cant": "all shapes", "anchors": ["pgmax/fgroup/enum.py: EnumFactorGroup.__post_init__", "pgmax/fgroup/fgroup.py: FactorGroup.factor_group_log_potentials"]}
{"id": "C13", "title": "PairwiseFactorGroup enumerates all state pairs", "statement": "A PairwiseFactorGroup of a pair of variables with n and m states lists each pair (i,j) exactly once in row-major order, and the log potential of (i,j) for factor f is entry [f,i,j] (or [i,j] when shared) of the matrix; mismatched shapes raise ValueError.", "quantifier": "all matrix shapes and values, all numbers of factors", "why_tests_cant": "all shapes", "anchors": ["pgmax/fgroup/enum.py: PairwiseFactorGroup.__post_init__, _compute_log_potentials"]}
{"id": "C14", "title": "Factor-group flatten/unflatten round-trip", "statement": "For Enum and Pairwise groups flatten accepts exactly the documented shapes, unflatten(flatten(d)) = d for per-factor data (shared data comes back tiled per factor), except for messages of a pairwise group with n*m = n+m (i.e. 2x2 variables), which come back in matrix shape. Unflatten accepts exactly the vectors of two lengths (potentials and messages), prefers the first, and raises ValueError otherwise; logical groups raise NotImplementedError.", "quantifier": "all shapes and data", "why_tests_cant": "all shapes", "anchors": ["pgmax/fgroup/enum.py: EnumFactorGroup.flatten/unflatten, PairwiseFactorGroup.flatten/unflatten"]}
{"id": "C15", "title": "Factor lookup by set of variables", "statement": "group[variables] returns the factor connected to exactly that set of variables whatever the order in which they are given, and raises ValueError when there is none. If several factors of a group are connected to the same set, the lookup returns the last of them, and the factors property lists one factor per set, in the order in which the sets first occur.", "quantifier": "all groups of well-formed factors, all permutations of the query", "why_tests_cant": "all permutations", "anchors": ["pgmax/fgroup/fgroup.py: FactorGroup.__getitem__, _variables_to_factors"]}
{"id": "C16", "title": "A graph never holds two factors of one type on the same variables", "statement": "After any sequence of add_factors calls (including failing ones) no two factors of the same type in the graph are connected to the same set of variables; an addition of a group is rejected with ValueError iff one of its variable sets was already recorded or is repeated in the group; other factor types and existing groups are never affected.", "quantifier": "all sequences of additions", "why_tests_cant": "an invariant over all histories", "anchors": ["pgmax/fgraph/fgraph.py: FactorGraph.add_factors"]}
{"id": "C17", "title": "A rejected add_factors is not atomic", "statement": "When add_factors raises, no factor of the offending group is in the graph, but the variable sets of the group preceding the duplicate stay reserved: later adding a factor on such a set is rejected although no factor uses it.", "quantifier": "all graphs and groups", "why_tests_cant": "failure-path property over all histories", "anchors": ["pgmax/fgraph/fgraph.py: FactorGraph.add_factors"]}
{"id": "C18", "title": "Message and potential ranges partition the flat arrays", "statement": "For any graph, the per-type message ranges and potential ranges are consecutive, disjoint and cover the flat arrays; each group's potentials start is inside its type's range and the groups' blocks are disjoint; the sizes equal the wiring's and the potentials' lengths.", "quantifier": "all graphs", "why_tests_cant": "all graphs", "anchors": ["pgmax/fgraph/fgraph.py: FactorGraph.compute_offsets, log_potentials, fg_state"]}
{"id": "C19", "title": "fg_state always reflects the current factors", "statement": "Whatever the history of add_factors / fg_state / bp_state calls on any number of graphs (sharing groups or not), a successful fg.fg_state equals the state compiled from scratch from the graph's current factors. (This relies on the caches being keyed by the factor groups; calling the public compute_offsets() directly on one of two graphs with equal groups breaks it.)", "quantifier": "all interleavings of operations on all sets of graphs", "why_tests_cant": "history property with shared global caches", "anchors": ["pgmax/fgraph/fgraph.py: FactorGraph.__hash__, compute_offsets, wiring, log_potentials, fg_state", "pgmax/utils.py: cached_property"]}
{"id": "C20", "title": "Compiled enumeration wiring addresses the right edge states", "statement": "For any list of enumeration groups the compiled and concatenated wiring associates factor f, configuration c, slot v with the edge state (start of f's slot v) + c[v] and the config number of (f,c); the var-states array maps each edge state to the flat evidence index of the same state of that slot's variable; uninitialised memory is never read. Rows of groups whose factors have different arities than the configurations are accepted when the total happens to match.", "quantifier": "all lists of groups, all contents of uninitialised arrays", "why_tests_cant": "all sizes; uninitialised memory", "anchors": ["pgmax/factor/enum.py: EnumFactor.compile_wiring, concatenate_wirings, _compile_enumeration_wiring_numba", "pgmax/factor/factor.py: _compile_var_states_numba"]}
{"id": "C21", "title": "Concatenating logical groups", "statement": "Compiling a graph with several OR (or AND) groups succeeds iff every group except the last has exactly one factor, and then the wiring addresses each factor's own parents and child; in all other cases it raises ValueError (it never produces a wrong wiring silently).", "quantifier": "all lists of logical groups", "why_tests_cant": "all numbers and sizes of groups", "anchors": ["pgmax/factor/logical.py: LogicalFactor.compile_wiring, concatenate_wirings, LogicalWiring.__post_init__, _compile_logical_wiring_numba"]}
{"id": "C22", "title": "Grouping factors does not change the wiring", "statement": "Adding factors one by one or as a single group gives the same wiring and the same potentials (enumeration, OR and AND).", "quantifier": "all factor lists", "why_tests_cant": "tests compare three sizes", "anchors": ["pgmax/factor/enum.py", "pgmax/factor/logical.py", "pgmax/fgroup/fgroup.py: SingleFactorGroup"]}
{"id": "C23", "title": "Variable-to-factor messages", "statement": "The message from a variable to a factor is the variable's evidence plus all messages from its other edges.", "quantifier": "all graphs, messages, evidence", "why_tests_cant": "all graphs", "anchors": ["pgmax/infer/bp.py: pass_var_to_fac_messages"]}
{"id": "C24", "title": "Enumeration factors: max-product messages", "statement": "At temperature 0 the message of an enumeration factor to one of its variables in state s is the maximum over the valid configurations with that variable in state s of log potential plus the other variables' messages (floored at NEG_INF before subtracting the variable's own message; states in no valid configuration get NEG_INF minus the own message).", "quantifier": "all graphs, potentials, messages", "why_tests_cant": "all configurations sets and real values", "anchors": ["pgmax/factor/enum.py: pass_enum_fac_to_var_messages"]}
{"id": "C25", "title": "Enumeration factors: messages at temperature T>0", "statement": "At temperature T>0 the message is T*log(sum over those configurations of exp((log potential + other messages)/T)); T=1 is sum-product.", "quantifier": "all graphs, potentials, messages, T>0", "why_tests_cant": "all real values", "anchors": ["pgmax/factor/enum.py: pass_enum_fac_to_var_messages"]}
{"id": "C26", "title": "OR/AND factors: max-product messages equal brute force", "statement": "At temperature 0 the messages of an OR (AND) factor with any number of parents equal, up to a per-edge constant, the messages obtained by enumerating all configurations in which the child is the OR (AND) of the parents, as long as message differences stay above NEG_INF.", "quantifier": "any number of factors, any number of parents, all messages", "why_tests_cant": "exponentially many configurations for every number of parents", "anchors": ["pgmax/factor/logical.py: pass_logical_fac_to_var_messages, get_maxes_and_argmaxes"]}
{"id": "C27", "title": "OR/AND factors: messages at temperature T>0 equal brute force", "statement": "Same as C26 for T>0 with log-sum-exp instead of max.", "quantifier": "any number of factors and parents, all messages, all T>0", "why_tests_cant": "same", "anchors": ["pgmax/factor/logical.py: pass_logical_fac_to_var_messages"]}
{"id": "C28", "title": "An OR/AND factor is equivalent to the enumerated factor", "statement": "Replacing an ORFactor/ANDFactor by an EnumFactor listing exactly its consistent configurations with zero potentials changes its messages only by per-edge constants, which normalisation removes.", "quantifier": "any number of parents, all messages, T>=0", "why_tests_cant": "tests sample ten seeds", "anchors": ["pgmax/factor/logical.py", "pgmax/factor/enum.py", "pgmax/infer/bp.py: normalize_and_clip_msgs"]}
{"id": "C29", "title": "Messages returned by run_bp are normalised and clipped", "statement": "For any graph, potentials, evidence, initial messages, number of iterations (including 0), damping and temperature, every message returned by run_bp has maximum exactly 0 and all entries in [-1000, 0], as long as the flat message array is within the supported size and no message drops below NEG_INF before normalisation.", "quantifier": "all inputs and iteration counts", "why_tests_cant": "invariant over all iterations", "anchors": ["pgmax/infer/bp.py: run_bp, normalize_and_clip_msgs", "pgmax/infer/bp_utils.py: segment_max_opt"]}
{"id": "C30", "title": "segment_max_opt: where it is correct", "statement": "segment_max_opt returns every segment's maximum for all data as long as len(data)+max_segment_length <= 100000 (and segment maxima are >= NEG_INF). Beyond that size the first segment's result is the maximum of a different window of the data, so the first edge's message is normalised by the wrong value.", "quantifier": "all data and segmentations of any size", "why_tests_cant": "the failure needs an array of 1e5 entries with a particular content", "anchors": ["pgmax/infer/bp_utils.py: segment_max_opt"]}
{"id": "C31", "title": "run_bp can be resumed", "statement": "Running n and then m iterations equals running n+m iterations; run_bp(0) only normalises; log potentials and evidence are returned unchanged.", "quantifier": "all n, m, inputs", "why_tests_cant": "all iteration counts", "anchors": ["pgmax/infer/bp.py: run_bp"]}
{"id": "C32", "title": "Damping", "statement": "Each iteration moves every message to the convex combination damping*old + (1-damping)*new before normalisation; damping 1 freezes the (normalised) messages; damping 0 is plain BP; a message vector whose undamped update only differs by per-edge constants is a fixed point for every damping.", "quantifier": "all inputs and dampings", "why_tests_cant": "all reals", "anchors": ["pgmax/infer/bp.py: run_bp"]}
{"id": "C33", "title": "Beliefs", "statement": "The belief of a variable in a state is its evidence plus the sum of all incoming factor messages for that state, reported under that variable's position in its group; padded states get -inf.", "quantifier": "all graphs and messages", "why_tests_cant": "all graphs", "anchors": ["pgmax/infer/bp.py: get_beliefs, unflatten_beliefs"]}
{"id": "C34", "title": "MAP decoding returns valid maximising states", "statement": "decode_map_states(get_beliefs(..)) gives for each variable a state smaller than its number of states with maximal belief, the lowest such state in case of ties. (For an NDVarArray whose variables all have one state the beliefs lose their state axis.)", "quantifier": "all graphs and beliefs", "why_tests_cant": "ragged state counts and ties", "anchors": ["pgmax/infer/bp.py: decode_map_states, get_beliefs"]}
{"id": "C35", "title": "Marginals", "statement": "get_marginals gives non-negative numbers summing to 1 for each variable, 0 on padded states, ordered as the beliefs and unaffected by adding a constant to a variable's beliefs.", "quantifier": "all beliefs", "why_tests_cant": "all reals", "anchors": ["pgmax/infer/bp.py: get_marginals"]}
{"id": "C36", "title": "Log potentials writes are read back and isolated", "statement": "After setting a group's log potentials, reading the group returns the flattened data and reading any other group is unchanged; unknown groups and data of the wrong size raise ValueError; initially every group reads its own constructor potentials.", "quantifier": "all graphs, sequences of writes", "why_tests_cant": "frame property over all groups", "anchors": ["pgmax/infer/bp_state.py: update_log_potentials, LogPotentials"]}
{"id": "C37", "title": "Spreading beliefs into messages", "statement": "Setting ftov messages for a variable writes data/k to each of its k edges (so they sum to data) and leaves every other message unchanged; wrong length or unknown variable raises ValueError.", "quantifier": "all graphs and data", "why_tests_cant": "frame property", "anchors": ["pgmax/infer/bp_state.py: update_ftov_msgs, FToVMessages"]}
{"id": "C38", "title": "init/update/to_bp_state frame and round-trip", "statement": "bp.update changes only the arrays for which updates are given; bp.init() returns the BPState's arrays; to_bp_state(arrays) returns a state with exactly those arrays, accepting them iff the three lengths are right.", "quantifier": "all graphs and arrays", "why_tests_cant": "frame property", "anchors": ["pgmax/infer/bp.py: BP.update, to_bp_state", "pgmax/infer/bp_state.py: LogPotentials, FToVMessages, Evidence, BPState"]}
{"id": "C39", "title": "run_bp is textbook damped, normalised belief propagation", "statement": "For every graph mixing enumeration, OR and AND factors, run_bp's messages after n iterations are those of textbook loopy BP on the factor graph (variable messages, factor messages by enumeration, damping, normalisation, clipping), edge by edge and state by state.", "quantifier": "all graphs, evidence, potentials, n, damping, temperature", "why_tests_cant": "end-to-end functional correctness over all graphs", "anchors": ["pgmax/infer/bp.py: run_bp"]}
{"id": "C40", "title": "Adding a constant to a variable's evidence does not matter", "statement": "Adding a constant to all states of a variable's evidence changes no normalised message, and changes the variable's beliefs by that constant only (as long as no value reaches NEG_INF).", "quantifier": "all graphs, constants, iteration counts", "why_tests_cant": "metamorphic property over all graphs", "anchors": ["pgmax/infer/bp.py", "pgmax/factor/enum.py"]}
{"id": "C41", "title": "Low temperature approaches max-product", "statement": "The temperature-T message of an enumeration factor lies between the max-product message and the max-product message plus T*log(number of valid configurations).", "quantifier": "all T>0, all inputs", "why_tests_cant": "limit statement", "anchors": ["pgmax/factor/enum.py: pass_enum_fac_to_var_messages"]}
{"id": "C42", "title": "Exactness on trees", "statement": "On acyclic graphs, undamped max-product converges in finitely many iterations to beliefs that are the exact max-marginals up to a constant per variable (as long as clipping never applies). If all assignments with other states score less than one assignment, the decoded states of all variables together are the states of that assignment.", "quantifier": "all tree factor graphs", "why_tests_cant": "all trees", "anchors": ["pgmax/infer/bp.py: run_bp, get_beliefs"]}
{"id": "C43", "title": "The order in which factors are added does not matter", "statement": "Adding the same factors in another order (or in other groupings) gives the same beliefs for every variable.", "quantifier": "all permutations of all factor lists", "why_tests_cant": "all permutations", "anchors": ["pgmax/fgraph/fgraph.py", "pgmax/infer/bp.py"]}
{"id": "C44", "title": "States of different graphs cannot be mixed", "statement": "BPState(...) succeeds iff its three components come from the same fg_state object; two reads of fg.fg_state without an addition in between return the same object, and after an addition a different one.", "quantifier": "all histories", "why_tests_cant": "history property on object identity", "anchors": ["pgmax/infer/bp_state.py: BPState.__post_init__", "pgmax/fgraph/fgraph.py: fg_state"]}
{"id": "C45", "title": "Exact marginals on trees", "statement": "On acyclic graphs, undamped sum-product at temperature 1 makes get_marginals return the exact marginal distribution of every variable after as many iterations as there are factors (as long as clipping never applies). At any non-zero temperature T the beliefs are T times the logarithm of the total tempered weight of the assignments with that state, up to a constant per variable.", "quantifier": "all tree factor graphs, all evidence, potentials and initial messages", "why_tests_cant": "all trees and real inputs", "anchors": ["pgmax/infer/bp.py: run_bp, get_beliefs, get_marginals"]}
{"id": "C46", "title": "The factors property lists the factors that were added", "statement": "FactorGraph.factors gives, per factor type and in order of addition, exactly one factor per list of variables that was added, with its own variables, configurations and log potentials, and no two of one type on the same set of variables; it succeeds exactly when every factor can be constructed (ValueError otherwise); after any history of reads and additions on any number of graphs the cached property reflects the current graph, and reading it changes nothing else.", "quantifier": "all graphs, all histories", "why_tests_cant": "history property of a cache shared by all graphs; all group contents", "anchors": ["pgmax/fgraph/fgraph.py: FactorGraph.factors, factor_groups", "pgmax/fgroup/fgroup.py: FactorGroup.factors", "pgmax/utils.py: cached_property"]}
{"id": "C47", "title": "Normalisation, resumption and freezing survive rounding", "statement": "In any rounded arithmetic (monotone, idempotent rounding after every operation, exact on small integers; arbitrary exp and log) the messages returned by run_bp are numbers of the format in [-1000, 0]; unless a message lies below NEG_INF before normalisation its maximum is exactly 0, stopping and resuming run_bp gives bit for bit the same arrays, and damping 1 keeps the normalised initial messages. Damping 0 however need not replace the old messages by the new ones exactly (refuted with a witness).", "quantifier": "all roundings, graphs, arrays, temperatures, dampings, iteration counts", "why_tests_cant": "tests run one format and a few graphs; the statement covers every rounding function and every implementation of exp and log", "anchors": ["pgmax/infer/bp.py: run_bp, normalize_and_clip_msgs", "pgmax/infer/bp_utils.py: segment_max_opt"]}
{"id": "C48", "title": "Small changes of the inputs make small changes of the messages", "statement": "Take two runs of run_bp on the same graph whose evidence, log potentials and initial messages differ by at most e, p and m (up to a constant per variable, factor and message). After n iterations every message differs by at most the drift defined by x_0 = m, x_{n+1} = d x_n + (1-d)(p + (K-1)(e + (D-1) x_n)), with D the largest number of factors per variable and K the largest number of variables per factor. A variable whose best belief leads by more than e + D x_n is decoded to the same state in both runs. Constants added to the evidence of a variable, the potentials of a factor or an initial message change no message at all.", "quantifier": "all graphs of enumeration, OR and AND factors, all pairs of arrays staying above NEG_INF, all temperatures >= 0, dampings in [0,1] and iteration counts", "why_tests_cant": "a Lipschitz bound over all inputs and iteration counts cannot be sampled", "anchors": ["pgmax/infer/bp.py: run_bp, get_beliefs, decode_map_states", "pgmax/infer/bp_utils.py", "pgmax/factor/enum.py: pass_enum_fac_to_var_messages", "pgmax/factor/logical.py: pass_logical_fac_to_var_messages"]}
{"id": "C49", "title": "Which arguments are accepted, and what a fresh state contains", "statement": "NDVarArray is constructed exactly when it has at most 10^9 cells and num_states is an integer or an integer array of the same shape, VarDict exactly when num_states is an integer or an integer array with one entry per name; otherwise ValueError. The variables are then numbered consecutively from the group's hash and have the requested numbers of states, and two groups compare equal exactly when their ids agree modulo 2^32. A LogicalFactorGroup is constructed exactly when it has at least one factor, and keeps its type and variables. add_factors of any other object raises UnboundLocalError (elements of a list before it stay added). A graph built from a tuple of groups raises AssertionError when compiled, after any history. The default BPState holds the groups' log potentials, zero messages and zero evidence.", "quantifier": "all constructor arguments, graphs and histories", "why_tests_cant": "the acceptance conditions are exact over all sizes (the limit 10^9 cannot be tested by allocation) and over all histories of shared caches", "anchors": ["pgmax/vgroup/vgroup.py: VarGroup.__post_init__, __eq__", "pgmax/vgroup/varray.py: NDVarArray.__post_init__", "pgmax/vgroup/vdict.py: VarDict.__post_init__", "pgmax/fgraph/fgraph.py: add_factors, fg_state, bp_state", "pgmax/infer/bp_state.py: LogPotentials, FToVMessages, Evidence", "pgmax/fgroup/logical.py: LogicalFactorGroup; pgmax/fgroup/fgroup.py: FactorGroup.__post_init__"]}
{"id": "C50", "title": "No logarithm of zero, no division by zero", "statement": "Replace the logarithm of non-positive numbers and the quotient by zero by arbitrary values: run_bp still returns the same arrays, at temperature 0 on every graph and at other temperatures whenever every state of every variable occurs in some configuration of each of its enumeration factors. The same holds for the sum-product messages of logical factors (including those with one parent), for get_marginals and for message updates, on all inputs. A state in no configuration gets a message containing the logarithm of zero.", "quantifier": "all values of log and division outside their domain, all graphs, arrays, temperatures, dampings and iteration counts", "why_tests_cant": "absence of NaN on a few runs does not show that no input reaches log 0 or x/0; the statement rules them out for all inputs", "anchors": ["pgmax/factor/enum.py: pass_enum_fac_to_var_messages", "pgmax/factor/logical.py: pass_logical_fac_to_var_messages", "pgmax/infer/bp.py: run_bp, get_marginals", "pgmax/infer/bp_state.py: update_ftov_msgs"]}
{"id": "C51", "title": "Rounded max-product runs stay within an explicit drift of exact runs", "statement": "Let every arithmetic operation of run_bp and get_beliefs be rounded by a monotone function that keeps integers up to 100000 and the numbers it produces, and that changes numbers of moderate size by at most e. At temperature 0, on a graph in which every state of every variable occurs in some configuration, with evidence, potentials and initial messages of moderate size, the messages of the rounded run after n iterations at damping d differ from those of the exact run at damping 1 - rnd(1 - d) by at most kappa_n * e. kappa_n is an explicit recursion in the largest variable degree D, the largest factor arity K and the damping. Messages of the rounded run have maximum 0. Beliefs differ by at most D (kappa_n + 1) e. A variable whose best exact belief leads by more than D (kappa_n + 2) e is decoded to the same state by both runs.", "quantifier": "all rounding functions, error bounds, graphs with enumeration, OR and AND factors, arrays, dampings in [0,1] and iteration counts", "why_tests_cant": "a test compares one precision on a few inputs with a guessed tolerance; the theorem gives the tolerance for every precision, graph and iteration count", "anchors": ["pgmax/infer/bp.py: run_bp, get_beliefs, decode_map_states", "pgmax/infer/bp_utils.py: normalize_and_clip_msgs", "pgmax/factor/enum.py: pass_enum_fac_to_var_messages", "pgmax/factor/logical.py: pass_logical_fac_to_var_messages"]}
{"id": "C52", "title": "Dictionaries and registered classes pass through jax.jit", "statement": "jax.jit hands a function the entries of a dictionary in the order of the sorted keys, and returns dictionaries in that order. Whatever sorting function is used: (a) the compiled update_evidence, update_log_potentials and update_ftov_msgs return the same arrays as the functions themselves, on the same inputs, when no variable is written twice; (b) if all keys are of one kind, the order of insertion does not matter, even for failing updates; (c) if an evidence dictionary has a group and one of its variables, the variable's value stays exactly when the hash of the group is below the hash of the variable, so the entry inserted last need not win; (d) compiled get_beliefs, decode_map_states and get_marginals return the same values for every variable, with groups in the order of their hashes and names in increasing order; (e) flattening BPArrays gives evidence, messages and potentials in this order, mapping a function over it applies the function to each field, and wirings are rebuilt unchanged and accepted by their constructors.", "quantifier": "all sorting functions, graphs, arrays, update dictionaries and group ids", "why_tests_cant": "group hashes come from memory addresses, so a test sees one order per run; the theorems cover all orders", "anchors": ["pgmax/infer/bp_state.py: BPArrays.tree_flatten, update_log_potentials, update_ftov_msgs, update_evidence", "pgmax/infer/bp.py: get_beliefs, decode_map_states, get_marginals", "pgmax/vgroup/vgroup.py: VarGroup.__lt__", "pgmax/fgroup/fgroup.py: FactorGroup.__lt__", "pgmax/factor/factor.py: Wiring.tree_flatten"]}
{"id": "C53", "title": "Runs depend continuously on the temperature, down to zero", "statement": "(a) The message of an enumeration factor grows with the temperature: between temperatures T <= T' it grows by at most (T' - T) ln k, where k is the number of configurations that agree with the state. (b) Two runs of run_bp on the same graph at temperatures T and T' (0 included), with initial messages, evidence and potentials that differ by m, e and p up to constants, have messages after n iterations within an explicit drift, in which the difference of temperatures acts like a difference |T - T'| ln N of potentials; N bounds the number of configurations that agree with a state. (c) A variable whose best belief at T leads by more than e plus D times the drift is decoded to the same state at T'. (d) For fixed inputs and n, the messages converge to those at T as T' tends to T, so sum-product runs converge to the max-product run as the temperature goes to 0. (e) All variables whose best belief leads by a given amount are decoded alike at all temperatures close enough to T.", "quantifier": "all graphs with enumeration, OR and AND factors in which every state has a configuration, moderate evidence and potentials, temperatures >= 0, dampings in [0,1], iteration counts", "why_tests_cant": "temperature 0 takes another branch of the code (max instead of logsumexp), and a limit cannot be tested with finitely many temperatures", "anchors": ["pgmax/infer/bp.py: run_bp, decode_map_states", "pgmax/factor/enum.py: pass_enum_fac_to_var_messages", "pgmax/factor/logical.py: pass_logical_fac_to_var_messages"]}
{"id": "C54", "title": "A belief after n iterations depends only on what is at most n factors away", "statement": "(a) After n iterations of run_bp the beliefs and the decoded state of a variable depend only on the evidence and the initial messages of variables at most n factors away, and on the potentials of the factors in between. (b) Adding factors whose variables are all more than n factors away changes neither. (c) Two runs on two graphs give the same message after n iterations if the inputs agree wherever they can reach it, where factors, variables and states correspond by an embedding: variables may be renamed, states renumbered, variables of a factor and its configurations listed in another order, and the rest of the second graph may be anything. (d) Then beliefs correspond state by state, and decoded states are equal if states are not renumbered.", "quantifier": "all pairs of graphs with enumeration, OR and AND factors and an embedding, moderate evidence and potentials, temperatures >= 0, dampings in [0,1], iteration counts", "why_tests_cant": "a wrong index into the flat arrays shows up as influence of an unrelated input, which a test only sees if it varies exactly that input on a graph of the right shape", "anchors": ["pgmax/infer/bp.py: run_bp, get_beliefs, decode_map_states", "pgmax/infer/bp_utils.py: segment_max_opt", "pgmax/factor/enum.py: pass_enum_fac_to_var_messages", "pgmax/factor/logical.py: pass_logical_fac_to_var_messages", "pgmax/infer/bp.py: pass_var_to_fac_messages"]}
{"id": "C55", "title": "The order of the variables and configurations of a factor does not matter", "statement": "Programs that build graphs from the same factors, added in any order and in any groups, each with its variables and configurations listed in any order (columns of configurations and potentials rearranged accordingly), run belief propagation with the same evidence and obtain exactly the same beliefs, for every temperature, damping and number of iterations. For OR and AND factors this covers every order of the parents; exchanging a parent and the child is a different factor.", "quantifier": "all graphs with enumeration, OR and AND factors, moderate evidence and potentials, temperatures >= 0, dampings in [0,1], iteration counts", "why_tests_cant": "the order of variables determines edge offsets, wirings and the order of sums for every factor type; tests compare a few orders on small graphs", "anchors": ["pgmax/infer/bp.py: run_bp, get_beliefs", "pgmax/factor/enum.py: EnumFactor.compile_wiring, pass_enum_fac_to_var_messages", "pgmax/factor/logical.py: LogicalFactor.compile_wiring, pass_logical_fac_to_var_messages", "pgmax/fgroup/logical.py: LogicalFactorGroup"]}
{"id": "C56", "title": "At high enough temperature belief propagation converges to one fixed point", "statement": "Let every factor list all configurations, with log potentials within w of each other, every variable be in at most D factors and every factor have at most K variables, and let gain = (1 - exp(-2w/T)) (K-1) (D-1) be below 1. (a) Two runs of run_bp from different initial messages differ after n iterations by at most 2000 (d + (1-d) gain)^n in every entry. (b) There is one array of messages that run_bp leaves unchanged; every run converges to it at that rate, and no other array comes back after any number of iterations. (c) decode_map_states returns the states decoded at the fixed point as soon as D times this bound is below the lead of the best state. (d) Fixed points for different evidence and potentials differ by at most (p + (1 - exp(-2w/T)) (K-1) e)/(1 - gain). (e) For chains and cycles (D, K <= 2) the gain is below 1 at every positive temperature, and for any graph as soon as T > 2w(K-1)(D-1). Graphs made of PairwiseFactorGroup list all configurations. (f) At temperature 0 without damping the claim is false: on a triangle the messages oscillate for ever.", "quantifier": "all graphs of factors listing all configurations, moderate evidence and potentials, positive temperatures with gain < 1, dampings in [0,1), initial messages, iteration counts", "why_tests_cant": "convergence speaks about infinitely many iterations and all initial messages; a test stops after finitely many iterations from a few of them", "anchors": ["pgmax/infer/bp.py: run_bp, get_beliefs, decode_map_states", "pgmax/factor/enum.py: pass_enum_fac_to_var_messages", "pgmax/infer/bp_utils.py: normalize_and_clip_msgs", "pgmax/fgroup/enum.py: PairwiseFactorGroup"]}
{"id": "C57", "title": "Fixed points of belief propagation: consistent marginals, and decoded states no tree or loop of changes improves", "statement": "Beliefs are those of get_beliefs; the belief of a configuration of a factor is its log potential plus the beliefs of its states without the factor's own messages. (a) For any messages, the score of an assignment (evidence plus log potentials) is the sum of the beliefs of its states plus, for every factor, the belief of its configuration minus the beliefs of its states. Let now run_bp with damping d < 1 leave the messages unchanged. (b) At T > 0, for every factor and variable whose messages are not clipped at -1000, the softmax of beliefs/T of the variable is the marginal of the softmax of the beliefs/T of the factor's configurations; at T = 1 these are the rows of get_marginals. (c) At T = 0 the belief of a state is that of the best configuration with the state, up to a constant. (d) If factors list all configurations with potentials within w, all messages are at least -w. (e) At T = 0, if every variable has a unique best state whose messages are not clipped, the states of decode_map_states form an assignment, and no assignment that differs on a set of variables made of trees and single loops has a larger score. (f) So on chains and cycles the decoded states are globally optimal. (g) In general they are not: on a clique of four variables a fixed point decodes to score 12 where 16 is possible.", "quantifier": "all graphs, moderate evidence and potentials, fixed points, dampings in [0,1), sets of variables and assignments differing on them", "why_tests_cant": "the claim compares the decoded states with exponentially many assignments and holds for every fixed point of every graph", "anchors": ["pgmax/infer/bp.py: run_bp, get_beliefs, decode_map_states, get_marginals", "pgmax/factor/enum.py: pass_enum_fac_to_var_messages", "pgmax/factor/logical.py: pass_logical_fac_to_var_messages", "pgmax/infer/bp_utils.py: normalize_and_clip_msgs"]}
{"id": "C58", "title": "With any damping below 1, runs on acyclic graphs converge geometrically to the exact answers from any initial messages", "statement": "Let the factor graph be acyclic with F factors, at most D factors at a variable and K variables in a factor; let 0 < th <= 1 and bound(d, n) = 2000 (max(1, (K-1)(D-1)) / th)^F (d + (1-d) th)^n, which tends to 0 for d < 1 and th < 1. (a) At any temperature T >= 0 there is one array of messages that run_bp leaves unchanged with every damping; undamped runs reach it after F iterations; after n iterations with damping d every message is within bound(d, n) of it, whatever the initial messages; no other messages repeat under d < 1. This holds even where messages are clipped at -1000. (b) At T = 0, for inputs too small to be clipped from initial messages 0, the beliefs are the max-marginals up to a constant per variable and D bound(d, n); (c) a state that leads by more than that is decoded, so a unique best assignment is decoded by decode_map_states after finitely many iterations, the same number for all initial messages. (d) At T = 1 the entries of get_marginals are the marginals of the Gibbs distribution up to a factor exp(+-D bound(d, n)).", "quantifier": "all acyclic factor graphs of moderate potentials and evidence, all temperatures >= 0, dampings in [0, 1], initial messages and numbers of iterations", "why_tests_cant": "a limit, a rate and a bound for all initial messages and all trees; a test sees one run of one tree, and run_bp's default damping of 0.5 never reaches the fixed point exactly", "anchors": ["pgmax/infer/bp.py: run_bp, get_beliefs, decode_map_states, get_marginals", "pgmax/factor/enum.py: pass_enum_fac_to_var_messages", "pgmax/factor/logical.py: pass_logical_fac_to_var_messages", "pgmax/infer/bp_utils.py: normalize_and_clip_msgs"]}
{"id": "C59", "title": "A factor that treats its variables separately acts as evidence, and an uninformative factor does nothing", "statement": "Call a factor separable if it lists every combination of states of its variables once and its potentials are sums of one term th_u(s) per variable, up to a constant; a unary factor is the simplest case. Let t_u(s) = th_u(s) - max th_u, at least -1000. (a) Whatever a separable factor receives and at every temperature T >= 0, its message to its u-th variable is t_u after every undamped iteration; with damping d, from al * t_u (al = 0 for a fresh start) it is (1 - d^n (1 - al)) t_u after n iterations. (b) Take a graph with extra separable factors, started with their t_u as messages, and the graph without them, with the t_u added to the evidence. With the same other initial messages the two runs have the same messages, beliefs and decoded states after every number of iterations, for every temperature and damping. (c) Adding factors that list every combination with equal potentials changes nothing in a fresh run: same beliefs and decoded states after any number of iterations.", "quantifier": "all graphs of moderate potentials and evidence, all separable factors in them, all temperatures >= 0, dampings in [0, 1], initial messages and numbers of iterations", "why_tests_cant": "an equality between the runs of two different compiled graphs of any size, for all inputs and iteration counts; the factor's exact independence of what it receives (a max or log-sum-exp that factorises) is not visible from single runs", "anchors": ["pgmax/infer/bp.py: run_bp, get_beliefs, decode_map_states", "pgmax/factor/enum.py: pass_enum_fac_to_var_messages", "pgmax/infer/bp_utils.py: normalize_and_clip_msgs", "pgmax/infer/bp_state.py: Evidence"]}
{"id": "C60", "title": "Entries of a factor for the same assignment combine into one", "statement": "An enumerated factor may list the same assignment several times; nothing rejects it. Let the weight of an assignment be the maximum of its potentials at temperature 0, and T ln(sum exp(potential / T)) otherwise. If the factors of two graphs over the same variables correspond one to one, in any order, with the same variables and the same assignments allowed with the same weights, then from the same evidence and messages both have the same messages after every number of iterations, the same beliefs and the same decoded states, for every temperature and damping. In particular a repeated assignment, an entry dominated by another at temperature 0, and the order of the entries make no difference; at T > 0 repeating an entry raises its potential by T ln 2.", "quantifier": "all pairs of graphs of moderate potentials and evidence with corresponding factors, all temperatures >= 0, dampings in [0, 1], initial messages and numbers of iterations", "why_tests_cant": "an equality between the runs of two different compiled graphs of any size with differently shaped wirings, for all inputs and iteration counts", "anchors": ["pgmax/infer/bp.py: run_bp, get_beliefs, decode_map_states", "pgmax/factor/enum.py: EnumFactor, EnumWiring, pass_enum_fac_to_var_messages", "pgmax/fgroup/enum.py: EnumFactorGroup"]}
{"id": "C61", "title": "OR and AND factors are dual under negation", "statement": "Choose a set of two-state variables containing all variables of logical factors and exchange their two states everywhere: in the configurations of the enumerated factors, in the evidence and in the initial messages. Replace every OR factor by an AND factor on the same variables and conversely. Then, for every temperature and damping and after any number of iterations, every message and every belief of the new graph is that of the old one with the states of the chosen variables exchanged; the decoded states are exchanged too, except where both states of a chosen variable have equal beliefs (state 0 is decoded in both graphs).", "quantifier": "all pairs of dual graphs of moderate potentials and evidence, all temperatures >= 0, dampings in [0, 1], initial messages and numbers of iterations", "why_tests_cant": "relates two different branches of the message code (edge_states offset +1 and -1) on graphs of any size and any number of parents, for all inputs", "anchors": ["pgmax/factor/logical.py: ORFactor, ANDFactor, pass_logical_fac_to_var_messages", "pgmax/fgroup/logical.py: ORFactorGroup, ANDFactorGroup", "pgmax/infer/bp.py: run_bp, get_beliefs, decode_map_states"]}
{"id": "C62", "title": "Strong evidence holds a variable in a state, and held variables cut the graph", "statement": "(1) If the evidence of a variable prefers one state to every other by more than 1000 for each factor on it, that state is decoded after any number of iterations at every temperature and damping, and if it exceeds this by g the marginal of every other state is at most exp(-g). The factor 1000 cannot be replaced by anything smaller. (2) At temperature 0, let a set of variables be cut off from the rest of the graph by variables so held, by a margin that outweighs the evidence, messages and potentials in the factors of the set, and let every state of the set be possible together with the held states. Then the messages to the set, its beliefs and its decoded states after any number of iterations depend only on the evidence of the set, its initial messages, and the potentials of the configurations that agree with the held states; everything else in the arrays may differ.", "quantifier": "all graphs, all potentials and evidence of moderate size, all sets of variables and of held variables, all temperatures >= 0 for (1), dampings in [0, 1], initial messages and numbers of iterations", "why_tests_cant": "an independence statement about all pairs of runs that differ arbitrarily beyond the held variables, on graphs with cycles", "anchors": ["pgmax/infer/bp.py: run_bp, get_beliefs, decode_map_states", "pgmax/infer/bp_state.py: Evidence", "pgmax/infer/bp.py: pass_var_to_fac_messages", "pgmax/factor/enum.py: pass_enum_fac_to_var_messages", "pgmax/factor/logical.py: pass_logical_fac_to_var_messages", "pgmax/infer/bp.py: normalize_and_clip_msgs"]}
{"id": "C63", "title": "Temperature, potentials and evidence share a unit until messages are clipped", "statement": "Multiply the temperature, all potentials, all evidence and all initial messages by k > 0. As long as no message is clipped in either run, every message and belief after n iterations is multiplied by k, and the decoded states are the same; in particular a run at temperature T corresponds to one at temperature 1 with everything divided by T, whose marginals are proportional to exp(belief / T). Messages of factors with all configurations differ by no more than their potentials do, so that nothing is clipped if potentials and initial messages vary by less than 1000 and 1000 / k. When messages are clipped the claim is false.", "quantifier": "all graphs, all k > 0, temperatures >= 0, dampings in [0, 1], potentials and evidence of moderate size, initial messages and numbers of iterations", "why_tests_cant": "a relation between two runs for all scale factors and inputs, including the limit temperature 0, where the code takes another branch", "anchors": ["pgmax/infer/bp.py: BP, run_bp, get_beliefs, decode_map_states, get_marginals, normalize_and_clip_msgs", "pgmax/factor/enum.py: pass_enum_fac_to_var_messages", "pgmax/factor/logical.py: pass_logical_fac_to_var_messages"]}
{"id": "C64", "title": "Without damping, runs on graphs without cycles are final after the length of the longest chain of messages", "statement": "Say that a message from a factor enters into another one if it goes to a variable whose reply the other factor uses. If no chain of messages, each entering into the next, has more than L members, then run_bp without damping gives the same messages after any n >= L iterations, from any two sets of initial messages, at any temperature and whether or not messages are clipped. Such an L exists exactly when the factor graph has no cycles, and the number of factors is then one. For inputs of small range the beliefs after L iterations are the max-marginals up to a constant at temperature 0, and get_marginals gives the exact marginals at temperature 1, whatever the initial messages.", "quantifier": "all graphs whose chains are bounded, all temperatures >= 0, potentials and evidence of moderate size, pairs of initial messages and numbers of iterations", "why_tests_cant": "the bound depends on the shape of the graph and the claim ranges over all initial messages and all later iterations", "anchors": ["pgmax/infer/bp.py: run_bp, update, get_beliefs, get_marginals, normalize_and_clip_msgs", "pgmax/infer/bp.py: pass_var_to_fac_messages"]}
{"id": "C65", "title": "Symmetric models get symmetric beliefs, and ties are not broken", "statement": "A symmetry moves the factors, the variables of each factor, the variables and the states of each variable, and leaves all factors, potentials, evidence and initial messages as they are. Every symmetry of the inputs is a symmetry of the messages after any number of iterations: the beliefs and marginals of a variable and of the one it is moved to correspond state by state, and if states are not moved the two decode to the same state. If symmetries take the first state of a variable to each of its other states, then all its beliefs are equal, it decodes to state 0 and its marginals are uniform. So the decoded states taken together need not be an assignment of largest score, even on graphs without cycles where the beliefs are the max-marginals.", "quantifier": "all graphs and symmetries, temperatures >= 0, dampings in [0, 1], potentials and evidence of moderate size, initial messages and numbers of iterations", "why_tests_cant": "a relation between results for every automorphism of every graph", "anchors": ["pgmax/infer/bp.py: run_bp, update, get_beliefs, decode_map_states, get_marginals", "pgmax/factor/enum.py: pass_enum_fac_to_var_messages", "pgmax/factor/logical.py: pass_logical_fac_to_var_messages"]}
{"id": "C66", "title": "In attractive models more evidence for higher states never lowers a result, and runs from the extremes converge", "statement": "A model is attractive when, for any two configurations of a factor, the configurations of the higher states and of the lower states are also valid and have no smaller potentials together. For two runs on such a model with two states per variable, if the evidence and initial messages of the second favour higher states at least as much (going up gains at least as much), then after any number of iterations so do its messages and beliefs, no variable decodes to a lower state, and no marginal probability of the states from some state on is smaller. At temperature 0 this holds for any numbers of states as long as no message is clipped at -1000; with clipping it is false for three states, and without attractive potentials it is false. If the first iteration of a run favours higher (or lower) states, every later one does and the run converges to a fixed point. The runs from the lowest and from the highest messages converge, every run stays between them, and every fixed or periodic message array lies between their limits; if the limits agree every run converges to them.", "quantifier": "all graphs with attractive potentials, temperatures >= 0, dampings in [0, 1], potentials and evidence of moderate size, initial messages and numbers of iterations", "why_tests_cant": "a relation between runs for all pairs of inputs, and limits of infinite runs", "anchors": ["pgmax/infer/bp.py: run_bp, update, get_beliefs, decode_map_states, get_marginals", "pgmax/infer/bp_utils.py: normalize_and_clip_msgs", "pgmax/factor/enum.py: pass_enum_fac_to_var_messages"]}
{"id": "C67", "title": "At positive temperatures underflow makes OR and AND factors forget strong messages", "statement": "In exact arithmetic, if all parents of an OR factor are off with strength b (all parents of an AND factor on), the message to the child is off (on) with strength b, up to T ln 2 per parent; and if all parents but one are off and the child is on with strength b, the message to the remaining parent is on with strength b, up to T ln 2 per other parent. In rounded arithmetic whose exponential underflows to 0 below -U, as floating point does, and for strengths of U T or more, the message to the child is flat and the message to the remaining parent has strength T ln 2 only: the test for 0 in g, meant for factors with one parent, also catches sums that underflowed. Hence rounded runs at positive temperatures are not close to exact ones: however accurate the exponential is, all other operations being exact, one iteration can be wrong by 499.", "quantifier": "all graphs, OR and AND factors, messages, positive temperatures, rounding functions, logarithms with ln 1 = 0 and underflowing exponentials", "why_tests_cant": "all arithmetics and all strengths of messages; the tests use small messages", "anchors": ["pgmax/factor/logical.py: pass_logical_fac_to_var_messages (g, log_sigmoid)", "pgmax/infer/bp.py: pass_fac_to_var_messages, run_bp"]}
{"id": "C68", "title": "On enumeration factors rounded sum-product runs stay close to exact ones, at high temperature for ever", "statement": "Take a graph of enumeration factors, a positive temperature T, inputs of moderate size, arithmetic that rounds numbers of the size in use by at most e, and an exponential and a logarithm that are off by at most e on the arguments the code gives them (numbers up to 0, and numbers between 1/2 and the number of configurations plus 1). After n iterations every message of the rounded run at damping d is within soft_drift * e of the exact run at damping 1 - rnd (1 - d), where soft_drift depends only on n, the damping, the temperature, the largest number of factors per variable, of variables per factor and of configurations per factor. Messages keep maximum 0, the beliefs computed in rounded arithmetic are within D (soft_drift + 1) e of the exact ones, and variables whose best belief leads by more than D (soft_drift + 2) e decode to the same state. When updates shrink differences of messages (high temperature, as in C56) one bound times e holds for every number of iterations, and the rounded run approaches the fixed point of the exact iteration up to that bound. With OR or AND factors the statement is false (C67).", "quantifier": "all graphs of enumeration factors, positive temperatures, dampings in [0, 1], rounding functions, approximate exponentials and logarithms, inputs of moderate size and numbers of iterations", "why_tests_cant": "a bound for every arithmetic, every graph and every number of iterations", "anchors": ["pgmax/infer/bp.py: run_bp, update, get_beliefs, decode_map_states", "pgmax/factor/enum.py: pass_enum_fac_to_var_messages", "pgmax/infer/bp_utils.py: normalize_and_clip_msgs, segment_max_opt"]}
{"id": "C69", "title": "Inference can be set up on exactly the graphs that compile and have a factor, and nothing a client does afterwards breaks it", "statement": "A graph built from a list of variable groups and any successful or failing additions of well-formed factors compiles exactly when its factors only use variables of the groups, its enumeration groups have configurations and variables, and among its OR groups and among its AND groups only the last one has several factors; otherwise fg_state raises KeyError, IndexError or ValueError, respectively. On a compiled graph BP accepts every state unless the graph has no factors, in which case it raises ValueError. Every BPState and BPArrays a client can obtain by constructing states, assigning items, calling init, update and run_bp at any temperatures and dampings, in any order, and converting back with to_bp_state keeps the sizes of the graph's arrays and belongs to the same fg_state. Hence to_bp_state never raises on such arrays, the assumptions of the theorems about runs (C29-C68) hold for them, and beliefs, MAP states and marginals can be computed for all groups.", "quantifier": "all graphs of well-formed factors, all finite sequences of constructions, item assignments and calls of BP functions, all temperatures, dampings, iteration counts and update dictionaries", "why_tests_cant": "an invariant of every sequence of client calls", "anchors": ["pgmax/fgraph/fgraph.py: FactorGraph.fg_state, wiring, bp_state", "pgmax/infer/bp.py: BP, update, run_bp, to_bp_state, get_beliefs, decode_map_states, get_marginals", "pgmax/infer/bp_state.py: BPState, LogPotentials, FToVMessages, Evidence"]}
{"id": "C70", "title": "Nothing a client sees depends on the ids of its objects", "statement": "Variables are identified by hashes of the memory addresses of their groups, and factor groups by their addresses. Run the same program twice with objects at other addresses: groups of the same shapes, names and numbers of states, factors and factor groups on the corresponding variables with the same configurations and potentials, added by the same calls. Both runs accept and reject the same additions, compile to the same arrays or fail alike, and the same updates of evidence, messages and log potentials give the same arrays or fail alike. Belief propagation gives equal arrays, in any arithmetic (so also in floating point), and beliefs, MAP states and marginals are equal and in the order of the groups. This needs the ids of the groups of one graph to differ modulo 2^32: two groups 4 GiB apart are equal for the library, and one of them is missing from the results.", "quantifier": "all programs that construct groups, add factors and run inference, all pairs of assignments of ids to objects, all number types, temperatures, dampings and iteration counts", "why_tests_cant": "a test runs with the addresses it happens to get; the statement compares all assignments of addresses", "anchors": ["pgmax/vgroup/vgroup.py: VarGroup.__post_init__, _hash, variables", "pgmax/fgraph/fgraph.py: FactorGraph.__post_init__, add_factors, compute_offsets, fg_state", "pgmax/infer/bp_state.py: update_evidence, update_ftov_msgs, update_log_potentials", "pgmax/infer/bp.py: BP, run_bp, get_beliefs, unflatten_beliefs"]}
{"id": "C71", "title": "Beliefs and messages bound all scores and certify decoded states", "statement": "Take the messages of any state of belief propagation, converged or not. Let every variable hand shares of its belief (what get_beliefs returns) to the factors it is in and keep the rest. Let the residual of a configuration of a factor be its potential plus, for each of its states, the share of the belief handed to the factor minus the factor's message. Then no assignment has a larger score than the sum of the largest kept beliefs and the largest residuals. If no variable hands out more than its whole belief, the states that decode_map_states returns miss the largest score by at most what the residuals of their configurations miss of the largest ones. So they have the largest score if no configuration has a larger residual, and no other states have it if all variables keep a positive share and have a unique best state.", "quantifier": "all graphs, log potentials, evidence, messages, temperatures and shares", "why_tests_cant": "the bound is on the scores of all assignments, which are exponentially many, and holds for all messages and shares", "anchors": ["pgmax/infer/bp.py: get_beliefs, unflatten_beliefs, decode_map_states", "pgmax/infer/bp_state.py: BPArrays", "pgmax/factor/enum.py: EnumFactor"]}
{"id": "C72", "title": "Beliefs and messages give the exact partition function on acyclic graphs", "statement": "Run undamped sum-product belief propagation at a positive temperature T on a graph without cycles for at least as many iterations as there are factors. Let the sum of a variable be the sum over its states of exp(belief / T), and the sum of a factor that over its configurations, where the belief of a configuration is its potential plus the beliefs of its states without the factor's messages. Then T times the logarithm of the total weight of all assignments (evidence times factors, at temperature T) is T times the sum of the logarithms of the variables' sums plus, for every factor, the logarithm of its sum minus those of its variables. So the partition function of the model can be computed from what get_beliefs and the message array give. It needs acyclicity: two variables in two factors have total weight 20, and a fixed point that gives 16.", "quantifier": "all acyclic graphs, inputs in the supported range, positive temperatures and iteration counts of at least the number of factors", "why_tests_cant": "the partition function is a sum over exponentially many assignments; the identity is over the reals and for all acyclic graphs", "anchors": ["pgmax/infer/bp.py: run_bp, get_beliefs", "pgmax/factor/enum.py: pass_enum_fac_to_var_messages", "pgmax/factor/logical.py: pass_logical_fac_to_var_messages"]}
{"id": "C73", "title": "Beliefs and messages give the exact joint marginals of factors on acyclic graphs", "statement": "Run undamped sum-product belief propagation at a positive temperature T on a graph without cycles for at least as many iterations as there are factors. For a configuration of a factor take exp(belief / T), where its belief is its potential plus the beliefs of its states (what get_beliefs returns) without the factor's messages, and normalise over the configurations of the factor. The result is the probability of the configuration in the model: the total weight of the assignments in which the factor is in the configuration, divided by that of all assignments. This holds for enumeration factors and for logical factors, whose configurations the code never lists.", "quantifier": "all acyclic graphs, all factors and configurations, inputs in the supported range, positive temperatures and iteration counts of at least the number of factors", "why_tests_cant": "the probability is a sum over exponentially many assignments, and the identity is over the reals and for all acyclic graphs", "anchors": ["pgmax/infer/bp.py: run_bp, get_beliefs", "pgmax/factor/enum.py: pass_enum_fac_to_var_messages", "pgmax/factor/logical.py: pass_logical_fac_to_var_messages"]}
{"id": "C74", "title": "Beliefs and messages give the exact max-marginals of the configurations of factors on acyclic graphs", "statement": "Run undamped max-product belief propagation (temperature 0) on a graph without cycles for at least as many iterations as there are factors. The belief of a configuration of a factor (its potential plus the beliefs of its states without the factor's messages) is, up to one constant per factor, the largest score of an assignment in which the factor is in that configuration. So a configuration of largest belief belongs to an assignment of largest score. This holds for enumeration factors and for logical factors.", "quantifier": "all acyclic graphs, all factors and configurations, inputs in the supported range and iteration counts of at least the number of factors", "why_tests_cant": "the score is maximised over exponentially many assignments, and the identity is over the reals and for all acyclic graphs", "anchors": ["pgmax/infer/bp.py: run_bp, get_beliefs", "pgmax/factor/enum.py: pass_enum_fac_to_var_messages", "pgmax/factor/logical.py: pass_logical_fac_to_var_messages"]}
