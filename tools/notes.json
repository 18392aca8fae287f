{
 "C01": {
  "note": "Proved except that set_endpoint2 desynchronises the numeric codes (Edge.py:137), refuted by witness."
 },
 "C02": {
  "note": "True for every mark pair except circle-tail, which add_edge silently drops (refuted)."
 },
 "C03": {
  "note": "True for pairs carrying at most one edge; refuted for a pair with two parallel edges."
 },
 "C04": {},
 "C05": {
  "note": "Round trip proved; exact removal proved without parallel edges, refuted with them."
 },
 "C06": {
  "note": "Proved for every history that creates no parallel edges and avoids remove_connecting_edge and overwriting add_directed_edge; refuted with parallel edges."
 },
 "C07": {
  "note": "Refuted: the incremental closure is incomplete; proved for insertion orders where the head has no children or the tail has no parents yet."
 },
 "C08": {
  "note": "Proved for remove_edge of GeneralGraph; refuted for remove_connecting_edge, overwriting add_directed_edge and for every Dag.remove_edge (the reconstituted closure keeps the old entry). C08_remove_node and C08_add_node: after remove_node every ancestor answer is backed by a directed path that avoids the removed node (and is reflexive and includes every parent); C08_subgraph says the same of a subgraph given in order; add_node changes no answer between old nodes and makes the new node its own only ancestor and descendant."
 },
 "C09": {
  "note": "Counts and parents/children proved; is_parent_of refuted for a tail-tail edge parallel to a bidirected edge."
 },
 "C11": {
  "note": "Refuted: exists_directed_cycle is False on every graph without parallel edges; the underlying path search is proved correct for distinct nodes."
 },
 "C12": {
  "note": "Proved for acyclic graphs; on cyclic graphs the promised ValueError never comes and the call never returns (refuted).",
  "status": "proved"
 },
 "C35": {
  "note": "Answers are correct whenever the query returns (all DAGs, all Z) and it always returns for empty Z; refuted in general: some queries never return."
 },
 "C41": {
  "note": "Symmetry proved; refuted: raises on pairs adjacent in neither graph, ignores the first node, a reversed edge costs 0."
 },
 "C40": {
  "note": "Proved for GeneralGraph histories; refuted for Dag.remove_node."
 },
 "C42": {
  "note": "Proved for node lists in graph order; refuted for other orders (edges come out permuted)."
 },
 "C43": {
  "note": "Refuted: names are ignored and evaluation sorts the node list in place, corrupting the graph; equal graphs do have equal matrices."
 },
 "C26": {
  "note": "Exact characterisation over all histories.",
  "status": "proved"
 },
 "C44": {
  "note": "Refuted in both halves by reachable histories."
 },
 "C45": {
  "note": "Refuted for all sizes."
 },
 "C46": {
  "note": "Proved for ChoiceGenerator; refuted for DepthChoiceGenerator (IndexError)."
 },
 "C47": {
  "note": "Refuted: KeyError on a non-empty queue."
 },
 "C29": {
  "note": "Refinement of a finite map for all histories that never push a live key (the client discipline of ExactSearch); heapq by contract.",
  "status": "proved"
 },
 "C34": {
  "note": "Refuted for all pairs of methods; a cache for other data is refused (proved). C34_accepted_files says exactly which files are accepted, over all files."
 },
 "C20": {
  "note": "Full: meek and definite_meek, with termination bound."
 },
 "C21": {
  "note": "Full, for every consistent extension; also definite_meek."
 },
 "C22": {
  "note": "meek, definite_meek and orient_by_background_knowledge."
 },
 "C48": {
  "note": "Full."
 },
 "C49": {
  "note": "Refuted: the fourth Meek rule is missing, so edges directed by knowledge can leave compelled edges undirected.",
  "status": "partial"
 },
 "C18": {
  "note": "Full, for all graphs with directed and undirected edges."
 },
 "C19": {
  "note": "Full (Dor-Tarsi completeness)."
 },
 "C50": {
  "note": "Refuted: hangs on the undirected four-cycle.",
  "status": "partial"
 },
 "C51": {
  "note": "Refuted: the comparison is positional. The property holds when both DAGs list their nodes in the same order (C17)."
 },
 "C16": {
  "note": "Full functional correctness incl. termination; equivalence is graphical and, by MarkovEq (Verma and Pearl), also the equality of all d-separations."
 },
 "C17": {
  "note": "Same number of nodes assumed (numpy broadcasting of different shapes not modelled)."
 },
 "C23": {
  "note": "Test modelled as an arbitrary function answering d-separation of the DAG; both modes, skeleton_discovery and fas. oracle_exists shows that every DAG has such a test."
 },
 "C24": {
  "note": "Refuted as stated: stable=False appends a spurious empty set to the genuine one (C24_spurious_empty_refuted); stable=True records the union of the sets found, which the test may reject (C24_union_refuted). Proved: what is recorded with stable=False for skeleton_discovery and fas. See C55, C56 for the true parts.",
  "status": "partial"
 },
 "C25": {
  "note": "Renumbering of variables as a bijection; the test and knowledge are renamed along."
 },
 "C53": {
  "note": "Refuted: `break` leaves the neighbour loop before later forbidden neighbours are removed.",
  "status": "partial"
 },
 "C62": {
  "note": "Proved for perfect tests; the unrestricted claim is refuted by a concrete run of the default mode (C62_pc_cycle_refuted)."
 },
 "C72": {
  "note": "Closed under R1, R2, R6, R7, R9 (and R3 without latent variables), R8 for one index order, R5 on chordless four-cycles for every test and knowledge and on cycles of any length under an oracle (C72_R5_oracle), R10 for children with paths to both parents. Refuted: R4 is tried only after R1-R3 changed something, so telling FCI a true edge can lose an orientation (C72_R4_refuted); R5 misses longer cycles when the breadth-first search meets a covered path first (C72_R5_refuted); R10 misses children that are the parents themselves (C72_R10_refuted); R8 misses one index order."
 },
 "C73": {
  "note": "Forbidden part proved for all runs; required part partial and refuted in general."
 },
 "C75": {
  "note": "Both parts of the claim are false of the code; the counterexamples are concrete runs of the model."
 },
 "C76": {
  "note": "Labels proved sound as far as they are given; completeness of the visible label refuted."
 },
 "C78": {
  "note": "Rule-by-rule soundness and the triangle-free theorem proved; the unrestricted claim is refuted by a concrete DAG."
 },
 "C79": {
  "note": "Refuted by two-node graphs."
 },
 "C80": {
  "note": "Refuted: compute_dynamic_h adds the costs of stored patterns inside the variables already placed (its argument) although the patterns are costs of the variables still to be placed; with three variables the search returns a graph of score -4 where -7 is possible."
 },
 "C30": {
  "note": "Exact arithmetic on integer scores (every finite set of float scores can be scaled to integers; rounding is not modelled); scores -inf are not modelled. The priority queue enters by its contract (C29) and networkx.shortest_path by its contract."
 },
 "C31": {
  "note": "Scores are integers (exact arithmetic), with the code's 1e-6 as a positive integer eps. BOSS: every accepted move raises the score by at least eps. GRaSP: a successful search raises it when distinct order scores differ by more than eps; otherwise by the bound of C83_dfs (the code itself accepts moves that lose less than 1e-6)."
 },
 "C84": {
  "note": "Refuted: dfs iterates over the very list object that update() clears and refills, so after a failed attempt the loop continues over a stale/changed list and may skip parents."
 },
 "C85": {
  "note": "Refuted: GSTNode.grow sorts its branches in ascending order of score, so trace takes the worst improving candidate first."
 },
 "C86": {
  "note": "Refuted: the edge bumps of the plateau moves are lost when a nested search succeeds."
 },
 "C38": {
  "note": "Characters are code points 0-255 (Python white space rules on them); the file is modelled as the string it holds, read with universal newlines."
 },
 "C87": {
  "note": "Refuted by two families of graphs."
 },
 "C39": {
  "note": "for score-equivalent scores; C92 is the version for all set scores"
 },
 "C88": {
  "note": "optimum over every member DAG of the class the forward phase ends in"
 },
 "C89": {
  "note": "optimum over every member DAG of the returned class"
 },
 "C90": {
  "note": "independence of single variables (composition lifts it to sets)"
 },
 "C91": {
  "note": "both phases"
 },
 "C92": {
  "note": "scores are exact integers instead of floats"
 },
 "C93": {
  "note": "refuted: compelled parents are counted only, and with <="
 },
 "C94": {
  "note": "refuted: insert and delete mutate the recorded graph object"
 },
 "C95": {
  "note": "refuted: N = 2 with a direction-dependent score"
 },
 "C96": {
  "note": "log-gamma and the prior terms are arbitrary functions; exact arithmetic"
 },
 "C97": {
  "note": "Over the real numbers (Coq's Reals axioms); np.linalg.inv by its contract; floating point rounding and the LinAlgError branch for singular matrices are not modelled."
 },
 "C98": {
  "note": "Statistic over Coq's reals (stdlib Reals axioms); 64-bit overflow of the flat index and rounding not modelled; chi2.sf is an arbitrary function."
 },
 "C99": {
  "note": "Same model as C98."
 },
 "C100": {
  "note": "Same model as C98."
 },
 "C104": {
  "note": "Refuted: markov_network_raw is already symmetrised when the blankets are written, so the logical_and with its transpose is the identity and the OR rule is computed (C103)."
 },
 "C108": {
  "note": "Refuted twice: sepset holds Node objects while ruleR3 and ruleR4B look up integer indices, so R3 never applies (C108_R3_refuted) and R4's fallback always says collider, which puts an arrowhead at a parent even without latent variables (C108_R4_refuted). What does hold is C105-C107."
 },
 "C107": {
  "note": "R8 is only tried with a before c (the same limitation as C72); R10 is not covered."
 },
 "C112": {
  "note": "Refuted: mvcdnod_alg calls add_directed_edge with its arguments the other way round from cdnod_alg, so every edge at the index points into it (C112_mv_index_is_effect_refuted); with uc_priority 0 or 1 a collider at the index turns its edges or makes them bidirected (C112_priority_0_1_refuted)."
 },
 "C113": {
  "note": "Refuted: the edges at the index are oriented before the knowledge is looked at (C113_knowledge_at_index_refuted), and the skeleton search is run without the knowledge, so a pair forbidden both ways stays adjacent (C113_forbidden_pair_refuted). What holds is C111."
 },
 "C109": {
  "note": "The index is modelled as a variable of the DAG (the paper's surrogate); mvcdnod_alg's skeleton correction is not modelled."
 },
 "C118": {
  "note": "Refuted: fit consumes self._partial_orders, which only the constructor fills: after one successful fit the order of any later fit is the one an object without knowledge finds (C118_refit_forgets_orders_refuted; C118_ex is a concrete reversal)."
 },
 "C119": {
  "note": "Refuted: 'no path' in both directions and nothing else is discarded altogether, so the excluded coefficient is estimated; next to other knowledge it only excludes the two coefficients, not an indirect path; a demanded path only fixes the order. What holds is C116."
 },
 "C121": {
  "note": "Refuted: the loop sets one more entry to zero before its first look, so with two variables the order is always 0, 1 and with one variable fit raises. What holds is C120."
 },
 "C114": {
  "note": "The adaptive lasso is an arbitrary function of predictors and target; coefficients are integers in the model."
 },
 "C125": {
  "note": "Refuted: the list of successors of the start is shared with the bottom of the stack, so a cycle through the start can go unnoticed and a 'path' visits a variable twice; for equal variables numpy.cumprod([])[-1] raises IndexError."
 },
 "C128": {
  "note": "Refuted: min_causal_effect is checked but never passed to find_all_paths."
 },
 "C126": {
  "note": "Coefficients are integers in the model; numpy's argsort is any function that sorts."
 },
 "C133": {
  "note": "Refuted: root variables are recognised by a zero signed row sum, so x2 = x0 - x1 is taken for a root and its total effect is ignored."
 },
 "C129": {
  "note": "Real arithmetic instead of floating point; the tolerance 1e-10 is a parameter and coefficients are zero or at least the tolerance."
 },
 "C137": {
  "note": "Refuted: one variable raises ZeroDivisionError; fit consumes the partial orders, so a second fit ignores them; with knowledge the candidates are only regressed on the other candidates, not on all remaining variables."
 },
 "C134": {
  "note": "The HSIC/F-correlation tests (Fisher p-values) and the adaptive lasso are arbitrary functions."
 },
 "C141": {
  "note": "Refuted: contradictory pairwise tests give a cyclic adjacency matrix; ancestors of ancestors are not added; hu_history skips a set whose common ancestors did not change although newly found ancestors now leave only one sink."
 },
 "C139": {
  "note": "The tests (Shapiro, Pearson, HSIC) and regressions are arbitrary functions of the residual variables they look at."
 },
 "C145": {
  "note": "Refuted: contradictory pairwise tests give x0 -> x1 -> x2 -> x0; only direct two-way relations are excluded."
 },
 "C143": {
  "note": "The GAM regressions and HSIC p-values are arbitrary functions; alpha >= 0."
 },
 "C149": {
  "note": "Refuted: in the unstable mode skeleton_correction removes edges without recording a separating set, and UCSepset then fails on the unshielded triple left (0 -> 2 <- 1, spurious dependence of 0 and 1 in the deletion test)."
 },
 "C148": {
  "note": "Partial: without background knowledge, and with stable=True or a rule that does not use recorded separating sets (C149 refutes the remaining mode). The tests are functions of the variables and the conditioning set."
 },
 "C155": {
  "note": "Refuted: the loops test data[:, [z]] for z in range(len(Z)), i.e. the first columns of the data, instead of the columns of the remaining variables."
 },
 "C157": {
  "note": "Refuted: one variable gives an empty graph, two raise ZeroDivisionError, statistics >= 1e9 raise IndexError."
 },
 "C154": {
  "note": "Surrogates, tests and Fisher's combination are arbitrary functions."
 },
 "C159": {
  "note": "Refuted: the errors are computed from the pruned instantaneous matrix and the unpruned residuals."
 },
 "C161": {
  "note": "The regressors are proved to be the right columns; refuted when the criterion chose fewer lags: the regressions use lags the matrices do not have."
 },
 "C162": {
  "note": "Refuted: the first fit stores its autoregressive coefficients in the object and later fits reuse them."
 },
 "C163": {
  "note": "Refuted: the coefficients of the first fit are used for every sample."
 },
 "C164": {
  "note": "Instantaneous effects are proved; refuted for the lags: every lag is written to the columns of lag 1."
 },
 "C165": {
  "note": "Refuted in the first rows: np.roll puts the end of the series there."
 },
 "C166": {
  "note": "The reduced form is proved; the documented form is refuted: np.dot's third argument is an output array, so that omega lacks the factor inv(I - psi_0)."
 },
 "C167": {
  "note": "Refuted in each of its parts."
 },
 "C169": {
  "note": "Refuted: all positive lags give the effect of lag 1, and parents at the last lag are read as errors."
 },
 "C171": {
  "note": "Refuted: negative Python indices reach the last time points, possibly the target itself."
 },
 "C172": {
  "note": "Proved for up to two lags, refuted from three on: only the matrix of lag t + 1 is NaN."
 },
 "C173": {
  "note": "The layout is proved; refuted: the effects are estimated on the original data."
 },
 "C175": {
  "note": "Exchangeability is proved; data sets of different sizes always raise (np.array of a ragged list, numpy >= 1.24)."
 },
 "C176": {
  "note": "Refuted in its last part: the first sample respects the knowledge, later ones need not (the fit consumes it)."
 },
 "C178": {
  "note": "Refuted in both parts: the node type is compared with a bound method, and Dag.get_sepset calls an instance method on the class."
 },
 "C179": {
  "note": "Proved when at most one node is left out and the order is kept; refuted otherwise: rows are deleted by their old indices from the matrix that has already shrunk, and leaving out the last node and another one always raises."
 },
 "C180": {
  "note": "Refuted in each of its parts: add_edge(None) raises for every pair of observed nodes that no edge and no single latent node joins; confounded edges are lost; circles never occur."
 },
 "C181": {
  "note": "Layout proved, and exactness up to rounding for levels with four decimals; refuted: p-values are rounded to four decimals before they are compared, and every variable is reported to influence itself at every lag, untested."
 },
 "C183": {
  "note": "Proved for the graph and the weights separately; refuted that they agree: with both directions on, the weights keep both arcs."
 },
 "C184": {
  "note": "Proved: the constraint characterises acyclicity; the graph is a DAG if the constraint is met and htol (2d)^L < L C(d,L) for all L, which for the default tolerance holds up to seven variables. Refuted for eight variables (a ring passes the default tolerance) and when training ends because rho or the rounds run out."
 },
 "C186": {
  "note": "Proved: symmetric, order of samples, range, units for all widths but the median. Refuted: the median width is found before the data are normalised, so it depends on the units; a constant variable gives NaN."
 },
 "C187": {
  "note": "Proved: order of samples and units, for all kernels. Refuted: half of z is appended to x only, so with linear kernels the statistics of (x, y) and (y, x) differ whenever the correlations with z differ."
 },
 "C188": {
  "note": "Refuted: a residual that is constant gives NaN, so a noise-free relation is not accepted."
 },
 "C189": {
  "note": "Refuted: the p-value is that of a t-test of equal means between cause and noise; it ignores their pairing, is 1 for noise equal to the cause, and any statistic can be had by shifting the noise. Swap proved for training without random numbers, refuted in general."
 },
 "C194": {
  "note": "Over the reals."
 },
 "C195": {
  "note": "The Gaussian kernel is shown to be a limit of finite Gram matrices (power series of exp); the same argument gives C186_nonneg and C187_nonneg for the kernel tests KCI_UInd and KCI_CInd."
 },
 "C196": {
  "note": "Order invariance holds for rules of thumb that do not depend on the order and for at most 100 samples; C196_sample_order_refuted: with 101 samples moving one sample from the end to the front turns NaN into a number."
 },
 "C197": {
  "note": "The distribution function of scipy is a parameter (values in [0, 1]); met by any variable that is not constant tested against itself (C197_p_value_met)."
 },
 "C198": {
  "note": "C198_constant_refuted: a constant variable is independent of everything, but the p-value is NaN and the decision dependent. ppf is assumed inverse to cdf."
 },
 "C199": {
  "note": "C199_sign_refuted: the width of the residual is wi - sum c_j w_j, so replacing y_j by -y_j and c_j by -c_j leaves the residual unchanged but not the objective (and the width can be 0 or negative). The optimiser (L-BFGS) is not modelled."
 },
 "C200": {
  "note": "C200_centering_refuted: H0 * K * H0 multiplies elementwise, which gives (1 - 2/T) I + K / T^2, so the rows never add up to 0 and the data change the entries by less than 1/T^2."
 },
 "C202": {
  "note": "C202_likelihood_refuted: the log-determinant is counted half. The inverse (pdinv) and the logarithm of the diagonal of the Cholesky factor are parameters, assumed correct for positive definite matrices."
 },
 "C204": {
  "note": "C204_marginal_refuted: np.diag(1 / ell) * x.T is elementwise and raises ValueError for 2 <= number of parents < T; C204_multi_refuted: with d > 1 columns reshape(-1, 1) makes the shapes incompatible; C204_multi_alone_refuted: cv_multi without parents raises for 3 or more folds and T >= 2k."
 },
 "C205": {
  "note": "C205_gradient_partial, C205_signal_refuted, C205_noise_refuted: only the last component of the gradient is computed, the others are 0, and the last one is that of elementwise products; signal and noise components differ from the derivative."
 },
 "C206": {
  "note": "C206_first_component_refuted: products of column vectors are taken at their first component, so a function with first gradient component 0 gets at most two line searches (41 evaluations). The direction that becomes a square matrix after a successful line search with two or more parameters is not followed."
 },
 "C207": {
  "note": "C207_hyperparameters_refuted: length scale and signal are returned as they started, after at most 41 evaluations."
 },
 "C208": {
  "note": "Refuted for every input: line 306 takes the fourth node from get_node1, so the result is the empty list on every DAG."
 },
 "C210": {
  "note": "Termination within n*n + 1 rounds and the completed graph, for all DAGs; the diagonal may be -1 or NaN."
 },
 "C211": {
  "note": "All finders proved; the conditioning sets cover what they should, but the same set can appear twice under two orders of its members."
 },
 "C212": {
  "note": "Tokenised files (the parsing of the text itself is not modelled); node numbers within range. Refuted for a single node, which reads back as an empty matrix."
 },
 "C213": {
  "note": "adjmat2digraph and rearrange_columns proved; is_dsep refuted: on every graph made by adjmat2digraph it raises, because it asks about strings while the nodes are integers. networkx.is_d_separator is represented by its documented node check only."
 },
 "C214": {
  "note": "Refuted for BootstrapMixin: line 52 estimates on the original data, so only the structure is bootstrapped; MultiGroupDirectLiNGAM uses the resampled data."
 },
 "C215": {
  "note": "Listing, probabilities and order proved; refuted for the effect: the median is over all nonzero effects, so a listed effect can be below the threshold."
 },
 "C221": {
  "note": "Range and statistic proved; refuted: the permutation p-value is 0 whenever no permutation exceeds the statistic, and with one feature the requested approximation is replaced by hbe."
 },
 "C223": {
  "note": "Moments and range proved; refuted for constants: a constant y gives NaN with the gamma approximation and raises with the simulated one."
 },
 "C225": {
  "note": "Refuted: with only blocks of less than 6 samples FastKCI_CInd reports p = 0 for all data, FastKCI_UInd reports p = 0 for a constant, and FastKCI_CInd raises when y is constant in a block."
 },
 "C227": {
  "note": "Forwarded options proved; refuted: null_ss raises a TypeError for kci (the conditional test calls it nullss), nullss and every option that is not forwarded are silently ignored."
 },
 "C228": {
  "note": "Proved for fisherz, kci, fastkci, rcit, mv_fisherz and mc_fisherz; refuted for chisq and gsq, which take missing values as one more category."
 },
 "C234": {
  "note": "False: _residual divides np.cov, which divides by n - 1, by np.var, which divides by n, so the covariance with the regressor becomes -1/(n-1) times what it was; of an exact multiple c*y + d there remains d - c/(n-1)*y instead of a constant (C234_*_partial, for all data). Refuted by C234_uncorrelated_refuted."
 },
 "C235": {
  "note": "False: fit copies the checked array, which keeps an integer type, and assigns the residuals into it, which cuts them off towards zero; what remains is less than one unit away and right only where the residual is an integer (C235_cut_off_partial). C235_type_matters_refuted: two binary variables of which nothing remains, so that the next standardization divides by zero."
 },
 "C236": {
  "note": "False for one kind of edge: if the earlier node has a circle and the later one a tail, get_graph_edges reports Edge(CIRCLE, TAIL), which add_edge silently refuses, so it is lost (C236_circle_tail_refuted). C236_transfer_partial: everything else is copied, for all graphs."
 },
 "C237": {
  "note": "False: the constructor keeps the list it is given, get_nodes returns it, and add_node and remove_node change it in place (so dag2cpdag's result shares its list with the DAG). C237_shared_refuted: for every list, a node added to one of two such graphs appears among the nodes of the other, where every edge query with it raises and adding it is refused. C237_*_partial: graphs over separate lists are independent."
 },
 "C239": {
  "note": "False: the result is assigned into the copied array, which keeps its integer type (C239_cut_off_partial, for all data). C239_type_matters_refuted: two binary variables of which nothing is left although least squares leaves 1/2 and -1/2."
 },
 "C240": {
  "note": "Arrows are right for all matrices. Unknown directions: only entries on and below the diagonal are drawn (np.tril), so NaN above the diagonal only gives no line at all (C240_upper_refuted); with NaN on both sides, as the library's own methods write it, every unknown pair has its line (C240_unknown_pairs_partial)."
 },
 "C241": {
  "note": "to_pydot: proved for all well-formed graphs (C241_drawn). to_pgv: the same drawing for graphs without parallel edges (C241_strict_partial); with them false, since the AGraph is strict: of 0 --> 1 and 0 <-> 1 only the second is drawn (C241_parallel_refuted)."
 },
 "C242": {
  "note": "C242_colors_partial: right on the empty nx_graph of a new object, for all graphs. False when called again after the graph changed: nothing is ever removed (C242_stale_refuted). Skeleton: right when every mark is a tail or an arrowhead (C242_skeleton_partial); with circles 0 <-o 1 is missing although 2 <-o 1 is there (C242_circle_refuted)."
 },
 "C243": {
  "note": "C243_cells and C243_distance for all graphs; C243_equal_partial: empty only for equal graphs of directed and undirected edges. Otherwise false: an undirected edge counts as a bidirected one and one with a circle as none (C243_blind_refuted, which also shows that a missing directed edge counts 1/2). The first result is half the number of pairs."
 },
 "C244": {
  "note": "Edges: proved, parallel edges included (C244_edges). Nodes: with a list of its own as stated (C244_nodes_partial); g.remove_nodes(g.get_nodes()) is false for every graph of two or more nodes, since get_nodes is the list that remove_node cuts while the loop goes through it: every second node stays (C244_own_list_refuted). Dag.remove_nodes: see C40."
 },
 "C245": {
  "note": "False: set_nodes replaces the list but not node_map. For every graph the new nodes are not known (KeyError) and the old ones still answered for (C245_unknown_refuted); the same nodes in another order make get_edge and get_graph_edges contradict each other (C245_order_refuted). A list of another length is refused (C245_length_partial)."
 },
 "C246": {
  "note": "C246_count, C246_remove: for all histories a triple is there just when it was added more often than removed. So they are no set: added twice and removed once it is still there (C246_set_refuted)."
 },
 "C247": {
  "note": "Proved. Drawing itself (networkx, matplotlib) and the scaling of places to [0, 1] are not modelled."
 },
 "C248": {
  "note": "Every variable stands beside its own label (C248_labels), but the order is that of the inverse permutation: right exactly when doing order twice changes nothing (C248_order_partial), so 1, 2, 0 puts variable 2 at the top (C248_order_refuted)."
 },
 "C249": {
  "note": "C249_sorted: right for the eigenvalues found, ties and results already in order included. With N at most m/25 those found are the largest in absolute value: right without negative eigenvalues, as of kernel matrices (C249_sparse_partial), otherwise false (C249_sparse_refuted). That np.linalg.eig and eigs find eigenvalues and vectors is not modelled, nor are complex numbers."
 },
 "C250": {
  "note": "False: the hash of a node is that of its name, so node_map no longer finds it. For every graph and name with a hash of its own: every query about the node raises KeyError, also through another node object with the old name, although get_node(new name) gives it (C250_lost_refuted); a node given the name of another one is silently answered for with the edges of the other (C250_mistaken_refuted). C250_lookup_partial: without renaming, node objects of equal names are interchangeable."
 },
 "C251": {
  "note": "'For every estimate' is false: an estimate without edges makes precision raise ZeroDivisionError for every truth, and as the truth it makes recall raise (C251_always_defined_refuted). C251_adjacency_precision_partial: everything else, with raising exactly in that case."
 },
 "C254": {
  "note": "The determinant in slogdet is defined in the model as the sum over permutations; logarithms of zero residuals (-inf in the code) are excluded by hypothesis."
 },
 "C257": {
  "note": "False: _get_residual_matrix writes into np.zeros_like(X), which keeps the integer type, so residuals are cut off towards zero; there is an integer data set whose residuals become constant (C257_integers_refuted). C257_cut_off_partial: they are off by less than 1, and zero where they are below 1."
 },
 "C258": {
  "note": "False: the hash is taken of str(data), and numpy shows only the first and last three rows and columns of an array of more than 1000 entries. For any two such data sets that agree there (even with different numbers of samples), every formatting and hash and every history, the cache is accepted and the p-values of the first data are served for the second (C258_other_data_accepted_refuted). C258_small_data_partial: data sets of one shape with at most 1000 entries are told apart, for an injective formatting and hash."
 },
 "C260": {
  "note": "False: a run within 30 seconds of construction writes nothing (C260_short_run_refuted); the p-value computed by the last call is never in the file (C260_last_answer_refuted); a crash while the file is rewritten leaves one that no test object can start from, whatever it held (C260_crash_refuted). C260_save_times says when saves happen."
 },
 "C261": {
  "note": "False as stated: required parents are stored and never read (C261_required_refuted), and a forbidden list that omits the variable lets it become its own parent (C261_own_parent_refuted); the code calls both lists 'not implemented'. The rest is proved for every history (C261_forbidden_partial): the answer is that of a fresh tree with the forbidden list in force."
 },
 "C262": {
  "note": "False for graphs: remove_attribute subscripts a method and raises TypeError after every history (C262_graph_remove_refuted), and transfer_attributes shares one dictionary instead of copying it, so later writes to either graph show in both (C262_transfer_shares). Reading back, absence and removal from a node are proved for every history without transfers. The dictionary's entry order is not modelled."
 },
 "C263": {
  "note": "Proved for nodes and edges (C263_clear_nodes_edges: the same graph as a new one after every history). False for the rest: annotated triples and attributes of the old graph remain (C263_clear_annotations_refuted). Dag.clear raises NotImplementedError (read, not modelled); the flags pattern and pag are not modelled."
 },
 "C264": {
  "note": "False: two edges of which one is first in the first node and last in the second are each less than the other (C264_not_an_order_refuted), and no list with such a pair has a sorted arrangement (C264_no_sorted_arrangement_refuted). Proved: < is irreflexive and connected, a strict order among aligned edges, sort only permutes, and a list of pairwise aligned edges comes out sorted (C264_aligned_sorts). list.sort is modelled for fewer than 64 elements (run, then binary insertion)."
 },
 "C265": {
  "note": "Proved for the constructors, the predicates and traverse_directed. False for ==: it compares the stored fields, so an edge without a single arrowhead (a -- b, a <-> b, a o-o b) is not == to the same edge written from b to a (C265_mirror_equality_refuted)."
 },
 "C266": {
  "note": "False for repeated names. A name always stands for its last position in the list (C266_last_position); the row and column of an earlier position of the name stay empty under every history of edge operations (C266_shadowed_isolated_refuted); remove_node drops the first node of that name from the list but the last one's row and column from the matrix (C266_remove_mismatch_refuted), so in [X; Y; Z; X] with Y --> Z removing X leaves the edge Z --> X (C266_moved_edge). Exactly the lists with a repeated name have such a position (C266_shadowed_iff). In a Dag, remove_node takes the name out of node_map, the other nodes of that name stay in the list and every later call naming one raises KeyError (C266_dag_remove_refuted)."
 }
}