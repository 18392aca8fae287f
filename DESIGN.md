# Formal model of py-why/causal-learn in Rocq (Coq 8.16.1)

The code in `/repo` is read as text and never run.  Every definition of the model cites the file and lines it mirrors;
where it simplifies, the comment says so.

## Layout

* `rocq/theories/*Model.v` - executable Gallina models (no proofs).
* `rocq/theories/*Spec.v`  - small independent specifications (paths, DAGs, d-connection, equivalence, combinations, ...).
* `rocq/theories/*Props.v` - the property theorems `Cnn_...`, each with concrete non-vacuity `Example`s beside it.
* every other file - lemmas.
* A claim the code violates is a `_refuted` theorem with a concrete (reachable) witness; where part of the claim holds, that
  part is a `_partial` theorem.  A property with a `_refuted` or `_partial` theorem has status `partial` in `MANIFEST.json`
  (the true part is all that can be proved of the code as it is).
* `tools/` - `manifest.py` regenerates `MANIFEST.json` from the `Theorem Cnn...` headers and `notes.json`; `assumptions.py`
  runs `Print Assumptions` on every manifest theorem; `seedlog.py` appends to `seeded/LOG.jsonl`.

## Modelling conventions

* A numpy matrix is a function `nat -> nat -> Z` with point update; its shape is the vertex count of the graph record.
  `gm g i j` is the endpoint code at `i` of the edge `i`-`j` (the code's convention): `i --> j` is `gm i j = -1, gm j i = 1`.
  Nodes are their index in `nodes` (the code maps node to index through `node_map`); the models that are about names (SHD,
  confusion, node addition/removal, graph equality, knowledge, text) carry names.
* In-place mutation becomes returning the new value.  Where the code depends on aliasing (generator results, recorded GES
  steps, the list GRaSP iterates over while it is rewritten) the model keeps the aliasing explicit.
* A Python exception is an explicit error value (`res`, `outcome`); a `while` loop is recursion on fuel with an explicit
  out-of-fuel result `Running`.  Termination theorems state a fuel bound; non-termination theorems say that every fuel runs out.
* External numeric code (independence tests, score functions, heapq) is an arbitrary argument of the model, and the theorems
  quantify over it; heapq enters through its contract.  Where a theorem needs something of it (perfect oracle, score
  equivalence, symmetry), that is a hypothesis defined in a `*Spec.v` file, with an instance shown.
* Floating point scores and p-values are exact integers (any finite set of floats can be scaled to integers; rounding and NaN
  are not modelled).

## What is modelled, file by file

| code (`/repo/causallearn`) | model | not modelled |
|---|---|---|
| `graph/Edge.py`, `Endpoint.py` | `EdgeModel` | printing colours, `properties` list |
| `graph/GeneralGraph.py` (edges, queries, `dpath`, subgraph, equality, node add/remove) | `GraphModel`, `NamedModel`, `UtilsModel` | pattern flags; attributes, triple annotations, clear and `__str__` have models of their own (below) |
| `graph/Dag.py` | `dag_remove_edge` in `GraphModel`, `NamedModel` | its printing |
| `graph/SHD.py`, `AdjacencyConfusion.py`, `ArrowConfusion.py` | `NamedModel` | - |
| `utils/GraphUtils.py` | d-connection, ancestors, cycle test, `sdh`, causal order, `exists_semi_directed_path`, `is_visible`-helpers in `UtilsModel`/`FCIModel` | pydot drawing |
| `utils/TXT2GeneralGraph.py`, graph printing | `TextModel` | encodings beyond code points 0-255 |
| `utils/DAG2CPDAG.py`, `MECCheck`, `PDAG2DAG.py` | `CpdagModel`, `PdagModel` | - |
| `utils/PCUtils/Meek.py`, `UCSepset.py`, `SkeletonDiscovery.py`, `Helper`, `search/ConstraintBased/PC.py` | `MeekModel`, `SkelModel`, `PCModel` | progress bars |
| `utils/Fas.py`, `search/ConstraintBased/FCI.py` | `SkelModel`, `FCIModel` | printing, `verbose` |
| `graph/GraphClass.py` finders | `FCIModel`/`FinderProps` | drawing |
| `utils/PCUtils/BackgroundKnowledge*.py` | `KnowledgeModel`, `MeekModel` | regex matching (an arbitrary predicate) |
| `utils/ChoiceGenerator.py`, `DepthChoiceGenerator.py` | `ChoiceModel` | - |
| `search/ScoreBased/ExactSearch.py`, `utils/PriorityQueue` | `ExactModel`, `PQModel` | scores -inf, `super_graph` validation messages |
| `search/PermutationBased/BOSS.py`, `GRaSP.py`, `gst.py` | `BossModel` | random shuffles are arbitrary choices |
| `search/ScoreBased/GES.py`, `utils/GESUtils.py` | `GESModel` | the kernel of each score function |
| `score/LocalScoreFunctionClass.py`, `utils/cit.py` cache | `CacheModel` | the numerical tests themselves |
| score functions BIC, BDeu in `LocalScoreFunction.py` | `BICModel`, `BDeuModel` (over Coq's reals / rationals of counts) | floating point, CV and generalized scores |
| `utils/cit.py` chi-square and G-square | `ChisqModel` | floating point, the chi2 survival function |
| `utils/MarkovNetwork/iamb.py` | `MBModel` | the tests themselves |
| `utils/DAG2PAG.py` | `Dag2PagModel` + `FCIModel` | networkx's d-separation (an answer function) |
| `search/ConstraintBased/CDNOD.py` | `CDNODModel` | `mvcdnod_alg` except its orientation of the index; phases 3 and 4 (not in the code) |
| lingam: base, direct, ica, prior knowledge | `Lingam*` | the ICA, entropies, kernels and regressions: arbitrary functions |
| lingam `bootstrap.py` (counts, probabilities, paths), `utils` `find_all_paths` | `BootModel` | medians of effects, resampling |
| lingam `causal_effect.py` | `EffectModel` | floating point, logistic `predict_proba` wrapper |
| lingam `bottom_up_parce_lingam.py` | `ParceModel` | the regressions and Fisher p-values (arbitrary functions) |
| lingam `rcd.py` | `RCDModel` | the tests and regressions (arbitrary functions), `bootstrap` |
| lingam `CAMUV.py` | `CAMUVModel` | GAM regressions and HSIC (arbitrary functions) |
| `search/ConstraintBased/PC.py` (`mvpc_alg`, `skeleton_correction`, `detect_parent`, `get_parent_missingness_pairs`) | `MVPCModel` | the tests (`MV_Fisher_Z`, permutation data of the corrected test), elapsed time |
| `search/HiddenCausal/GIN/GIN.py` | `GINModel` | surrogates, independence tests and Fisher combination (arbitrary functions) |
| lingam `var_lingam.py`, `varma_lingam.py`, `longitudinal_lingam.py`, `multi_group_direct_lingam.py` | `VARModel`, `VARMAModel`, `LongModel`, `MultiModel` | floating point; statsmodels, the regressions and the entropies (arbitrary functions); p-value matrices |
| GraphUtils.get_sepset, Dag.subgraph, Dag.dag2pag | `SepsetModel.v`, `DagMoreModel.v` | node types of latent nodes are an oracle; the matrix shared by Dag.subgraph of all nodes |
| GrangerModel, GrangerProps | Granger.py: the layout and thresholding of granger_test_2d, the design of granger_lasso | statsmodels' tests, LassoCV |
| CALMModel, CALMProofs, CALMProps | CALM.py, CALMUtils.py over the reals: gates, constraint, stopping rule, thresholds, graph | the gradient steps (an arbitrary function), floating point |
| utils/KCI (kernels, KCI_UInd, KCI_CInd without Gaussian processes), ANM.cause_or_effect, PNL.cause_or_effect | KCIModel.v, over the reals; the median, the gamma and t distributions, pinv, Gaussian process and network training are parameters; the spectral null distribution only through its sample | C185-C189 |
| cit.py FisherZ, MV_FisherZ, MC_FisherZ; Helper.py missing-data helpers | FisherModel.v, over the reals; np.linalg.inv by its contract, the normal distribution, LinearRegression and the shuffle are parameters | C190-C193 |
| `search/FCMBased/lingam/hsic.py`, `hsic2.py`, objective of `rcd.py` MLHSICR | `HSICModel.v` over R; NaN is None, ZeroDivisionError a failed result; gamma distribution and statsmodels bandwidths are parameters | floating point, the optimiser |
| score/LocalScoreFunction.py local_score_cv_general; cv_multi, marginal_general, marginal_multi (array shapes; the minimisation); utils/ScoreUtils.py kernel, minimize, gpr_multi_new, cov_seard, cov_noise | CVModel.v, GPModel.v | real arithmetic; inverse, Cholesky factor and log-determinant are parameters (assumed correct on positive definite matrices); for the marginal and multi-dimensional scores only shapes, the Gaussian process value, its gradient and the minimisation |
| Adjacency matrices of Helper.py, triple finders of GraphUtils (C208-C213) | HelperModel.v, HelperSpec.v | Helper.py graph functions on functions to Z (NaN is any other integer), TETRAD files as tokenised lines, networkx by its node check; GraphUtils.find_unshielded_triples, find_triangles, find_kites. Not modelled: text parsing, draw_graph. |
| Bootstrap loop, table of effects, medians, time series and longitudinal results (C214-C218) | BootMoreModel.v, BootMoreSpec.v | bootstrap.py; fit and estimators are arbitrary functions, draws an arbitrary list, a median is represented by its double. |
| `utils/RCIT/RCIT.py` (C219-C221) | RCITModel.v over the reals | momentchi2, chi2, eigh, pinv and the Cholesky inverse are arguments (the inverse by its contract), random draws are arguments, columns without variance give None |
| null distributions of `KCI.py`, `FastKCI.py` (C222-C225) | NullModel.v over the reals | eigh, eigvalsh, pinv, partitions, draws, likelihoods and rounding are arguments (with contracts in the statements); Gaussian-process kernels are not modelled |
| Registry and options of `CIT`, `utils/cit.py` 12-84 and constructors (C226-C228) | CITModel.v | the cache (CacheModel.v); values of options are not checked |
| DirectLiNGAM's measures (C232-C235) | direct_lingam.py _residual, _entropy, _diff_mutual_info, the scores of both measures, np.argmax with NaN, scale, the loop of fit over the data | DLModel | floating point; the singular values (an arbitrary function with a stated contract); the numbers an integer array makes of NaN |
| transfer_nodes_and_edges, shared node lists, remove_effect, make_dot (C236-C240) | GeneralGraph.py 26-45, 196-221, 834-860, 896-901; lingam/utils/__init__.py 145-273 | TransferModel, LutilModel | attributes; prediction_* of make_dot, label texts; LinearRegression (the normal equations are its contract) |
| to_pydot, to_pgv, to_nx_graph, to_nx_skeleton, matrix_diff (C241-C243) | GraphUtils.py 471-600; GraphClass.py 151-172; PC.py 483-497 | DrawModel | colours, widths, labels and shapes of drawings; pygraphviz's strict graph (one edge from a node to another, its attributes overwritten) and networkx's DiGraph are modelled by what they hold |
| remove_nodes, remove_edges, set_nodes, annotated triples (C244-C246) | GeneralGraph.py 829-864, 908-966, 985-989 | BulkModel | Dag's versions; set_*_triples keep the caller's list (aliasing) |
| plot_time_series, eigdec (C247-C249) | TimeseriesVisualization.py 50-117; ScoreUtils.py 69-112 | PlotModel | drawing, scaling; the eigenvalue routines are parameters; complex numbers |
| set_name of a node in a graph (C250) | GraphNode.py 34-37, 63-71; GeneralGraph.py 26-33, 447-452, 534-545 | RenameModel | the probe sequence of dict (the first matching entry is found); strings are integers, the hash any function |
| Precision and recall; CALM's objective | AdjacencyConfusion.py:52-56; ArrowConfusion.py:91-101; GraphUtils.py:422-444; CALM.py:61-69, 178-210 | RateModel, LikeModel | float rounding; the gradient steps; log of a zero residual |
| RCD residuals; fingerprint and file of the p-value cache | rcd.py:115-129, 311-316; cit.py:92-128, 157 | ResidModel, FingerModel, PersistModel | the regression routine (normal equations); text formatting and md5 (arbitrary functions); the file system beyond open('w')/write | 
| knowledge of a grow-shrink tree | gst.py:57-77 | GstModel (on BossModel's trace) | the caller's list of parents (always empty) |
| Attributes of nodes and graphs | GraphNode.py:15,78-97, GeneralGraph.py:47,903-904,992-1002, Dag.py:742-752 | `AttrModel.v` |
| GeneralGraph.clear | GeneralGraph.py:224-229 | `ClearModel.v` |
| order of edges | Edge.py:207-208 | `EdgeOrdModel.v` (with list.sort below 64 elements) |
| kinds and equality of edges | Edges.py:14-65, Edge.py:201-205 | `EdgeModel.v`, `EdgesProps.v` |
| Repeated node names: `GeneralGraph.__init__`, edge operations, `remove_node` (C266) | `TwinProps.v` over `NamedModel.v` |
| Gaussian-process kernels of KCI and FastKCI | not modelled (numerical) | all |

## Plan and method per property

* **C01** (edges) `EdgeModel` record, constructor and setters; case analysis over all marks.
* **C02-C05, C68** matrix operations of `GeneralGraph`; frame conditions for `add_edge`/`remove_edge`; C04 by induction over
  operation histories (`gop`, `gapply`), invariant `wf`.
* **C08 (nodes)** `NodeAncProps.v`: ancestor queries after add_node and remove_node, on the named graph of C40.
* **C06-C08** the incremental closure `dpath` (`adjust_dpath`); soundness by an invariant over histories, incompleteness and
  staleness by witnesses.
* **C09, C63-C67, C69** queries as folds over indices against counting/edge specifications.
* **C10, C12** fuelled loops with rank arguments; C11 the search is right for distinct nodes, the cycle test is vacuous.
* **C13-C15, C41** sums over name pairs; metric axioms and partition identities by reindexing.
* **C16, C17, C51** `dag2cpdag` (Chickering's edge ordering and labelling); `CpdagTheory` proves that the labels are exactly
  compelled/reversible by constructing turned DAGs (`turnable_clique`); equivalence is graphical (adjacencies and unshielded
  colliders), and `MarkovEq` proves Verma and Pearl's theorem itself (covered edge reversals simulate each other on the states of
  active walks; two equivalent DAGs are joined by covered reversals), so C16, C17 and C57 are also stated with d-separations only.
* **C18, C19, C50** Dor-Tarsi: extension by construction, completeness by "an extendable PDAG has a removable sink".
* **C20-C22, C48, C49, C58** Meek loop: measure, soundness for each consistent extension, closure, completion of a pattern
  (`MeekComplete`, `MeekFull`: Meek's theorem that rules 1-3 complete a pattern).
* **C23-C25, C52-C56** skeleton search and FAS with an arbitrary test; perfect-oracle theorems use `DsepTheory` (local Markov
  property of d-separation, some parent set separates); order independence by equivariance under bijections.
* **C57, C59-C62** `pc()` end to end: skeleton, collider orientation in the three modes, Meek; with a perfect oracle the
  result is the completed graph.
* **C26, C44** knowledge as operation histories with an exact characterisation of the queries.
* **C27, C28, C45, C46** generators as state machines; the trace equals the lexicographic enumeration.
* **C29, C47** heap with lazy deletion refines a finite map.
* **C30, C80** best-parent-graph, A* and DP; optimality through orders (every DAG follows an order; the shortest path in the
  order graph is the best order; A* with a consistent heuristic).
* **C31, C81-C86** grow-shrink trees (history independence), BOSS/GRaSP order searches; DAG by order; local optimum.
* **C32-C34** caches as association lists refined by the uncached function.
* **C35** breadth-first search over (node, direction) against walk-based d-connection.
* **C36, C70-C76, C78** FCI: FAS, rule0, Possible-D-Sep, rules R1-R10 and their loop; refinement of circles, termination,
  meaning of adjacency, closure, knowledge, edge labels, soundness of rules against a DAG with latents (`FCISpec`). R5 for cycles of any
  length (`R5Props`): excluded under an oracle by a node of highest rank on the cycle; refuted by a computed run otherwise.
* **C37** semi-directed path search is exact.  **C77, C79** finders of `CausalGraph`.
* **C38, C87** printer and parser over strings.
* **C39, C88-C95** GES.  `GESTheory` proves Chickering's operator theorems for the model's classes: a valid Insert/Delete
  corresponds to adding/removing one edge in a member DAG, and every single-edge change of a member DAG is a valid operator.
  `GESProofs`/`GESSweep` show that the code's validity tests, its pruning flags and its score records implement this;
  `GESLoop` the loop by a measure on adjacencies.
* **C96, C97** score equivalence.  `ScoreEqProofs`: in any abelian group, a sum over nodes of h(family) - h(parents) is the
  same for equivalent DAGs (Moebius inversion over subsets; the sets with a sink are the same in both DAGs).  BDeu counts and
  the BIC log-determinant (partial covariances, one pivot at a time, over Coq's reals) have that form.
* **C98-C100** chi-square and G-square tests (`ChisqModel`: recoding by `np.unique`, mixed-radix cell index, both ways of
  filling the table, expected counts, degrees of freedom) against the textbook statistic over Coq's reals.
* **C101-C104** IAMB (`MBModel`): invariants of the forward and backward loops; the blanket screens off the target given any
  superset of it, and each member depends on it given any superset of the rest.
* **C105-C108** dag2pag (`Dag2PagModel`, reusing the FCI rules): closed form of the skeleton phase per pair; minimum-size
  separators consist of ancestors of the pair or of selection variables, so the recorded union decides colliders.
* **C109-C113** CD-NOD (`CDNODModel`, sharing `uc_and_meek` with `pc_alg`): completeness for "the index has no parent" is reduced to
  the plain CPDAG theorem by giving the index two new parents (`CDNODTheory`), whose collider forces every edge at the index outward.
* **C114-C123** LiNGAM (`LingamModel`): scores and regressions are arbitrary functions, NaN included; the order loop is characterised by
  its prefix states, knowledge by the pairs it extracts.
* **C124-C128** bootstrap results (`BootModel`): the path search with its explicit stack (including the aliased successor list), by
  induction over a numbering of the acyclic graph; counting against any correct sorting routine.
* **C129-C133** CausalEffect (`EffectModel`, over Coq's reals): propagation is the unique solution of the intervened equations; the unit
  response is the sum over paths (induction along the order, last edge first); the random loop by an invariant over all schedules.
* **C134–C137** `BottomUpParceLiNGAM`: the loop invariant is that the unordered variables and the order partition `seq 0 n`; the matrix is read off the final order; knowledge orders are consumed by the loop, so ranks along the order refute cycles.
* **C138–C141** `RCD`: the number of ancestor pairs grows with every change, which bounds the restarting loop; an invariant keeps, for every pair, the set and the ancestors with which it was found, and for every history entry that its sinks were recorded.
* **C142–C145** CAM-UV: as for RCD, the number of parent pairs bounds the restarting loop; the stored residual matrix is shown to be the residuals on the current parents; pruning is characterised row by row.
* **C146-C150** missing-value PC: invariants of the correction loop, correctness from C56 and the theory of C16/C17.
* **C151-C157** GIN: breadth-first search invariants for the merging, a refinement of graph operations to named cells for the graph.
* **C158-C176** time-series and multi-group LiNGAM: models over the reals with the estimators as arguments; the structural equations are linear algebra over `rsum` (`VARProofs`), the layouts index arithmetic; MultiGroupDirectLiNGAM reuses the DirectLiNGAM proofs through `order_loop`.
* **C177-C178** get_sepset: the search is modelled with fuel, z as the state threaded through it; on a DAG the loop invariant is that every found set consists of proper ancestors, and a failed visit is a d-separation.  **C179-C180** Dag.subgraph and Dag.dag2pag: universal refutations, and the subgraph theorem for at most one node left out.
* **C181, C182** Granger: folds of writes; slices and concatenated blocks.
* **C183, C184** CALM: powers of I + A for nonnegative A bound walks from below by binomials (Pascal), a cycle contains a simple one; the eight-ring is computed with integers.
* **C185-C189** kernels as functions of the sample indices; order and units by a relation between matrices (reindexing and signs); asymmetry of KCI_CInd by computing the residual matrices of linear kernels; PNL from the formula of the two-sample t-test.
* **C190-C193** against a separate specification (FisherSpec.v: residuals by orthogonality, partial correlation); the entries of the inverse solved from the normal equations; invariance from the characterisation; the closure by a decreasing measure.
* **C194-C199** HSIC: `HSICModel.v`, `HSICProofs.v` (Gram matrices and their limits), `HSICMedian.v` (numpy.median), `HSICProps.v`, `HSICTestProps.v`: the Gaussian kernel is a limit of finite Gram matrices, so sums of entrywise products are limits of sums of squares; upper-triangle distances under a permutation by counting every pair twice.
* **C200-C207** kernel scores: the elementwise centering in closed form; folds by arithmetic on index ranges; the score with parents as the score of ridge residuals and the trace term by Woodbury; invariances from HSICMedian; numpy shapes as pairs of numbers; minimize as a loop with explicit evaluation trace, invariant value <= start.
* **C208-C213** Helper.py: finders by membership and NoDup; dag2pattern by the invariant that the matrix draws a graph between the pattern and the completed graph, each rule sound by calls_sound, closure at the last round, and closed_contains; TETRAD by induction over the lines.
* **C214-C218** bootstrap: the order loop by induction; tables by permutation of an argsort; medians by sorting; counts by C126's ranking.
* **C219-C221** rewriting of each stage under signs of columns and permutations of samples; normal equations of the ridge regression; sums of squares.
* **C222-C225** trace identities for Gram matrices of products of vectors; sums over filters and permutations of eigenvalues; sums over blocks; weighted averages.
* **C226-C228** registry, options, validation: strings and option lists; the built-in dispatch, the forwarded names and the signatures of the constructors as in the code; np.unique as the rank among the distinct cells. The p-value cache is CacheModel's (C33, C34).
* **C229-C231** units: partial covariances of the rescaled matrix by induction on the conditioning set (C229, reals); the runs with shifted scores are simulated step by step: records of GES (C230), trees, scores and states of BOSS and GRaSP (C231, with the history-independence of C82). Search scores are integers, so C229 is not composed with C230 and C231.
- C232-C235: relations between columns (affine, equal up to sign, shuffled) are preserved by residuals and respected by the measures; ranks turn the real measure into an integer one, so that C115-C117 apply; exact covariance of the residual; integer truncation refuted on two binary variables.
- C236-C240: induction over the pairs of nodes for the transfer; a heap of node lists; uniqueness of orthogonal projections; integer truncation again.
- C241-C243: the list of drawn lines is computed pair by pair for the thirteen legal pairs of codes; the networkx graph is a finite map.
- C244-C246: induction over the list, the loop position for the list being cut; the edges of each pair are removed one after the other; counting occurrences.
- C247-C249: the matrix of the unrolled graph as a fold of cells; counting places and indices above a value for the ties in eigdec.
- C250: a dict whose entries keep the hash of insertion time.
* **C251-C253** counts as cardinalities of sets of ordered pairs, quotients in Q. **C254-C255** determinant by permutations: scaling of rows and columns, and only the identity permutation contributes for an acyclic matrix (a numbering cannot increase along a permutation).
* **C256-C257** projection onto the ancestors' columns. **C258** the text shown by numpy depends on the edges only. **C259-C260** invariant: the file is a snapshot contained in the cache, which only grows; crash points inside a call.
* **C261** set_knowledge: the invariant of C82's trees for an arbitrary forbidden list, over all histories of calls.
* **C262** attribute dictionaries as shared references: frame lemma over histories; sharing invariant after a transfer; the graph remove refuted for every state.
* **C263** the whole graph object: clear simulates a new graph on nodes and edges; triples and attributes are kept.
* **C264** case analysis on the two comparisons; a cycle of length two excludes any sorted arrangement; sorting as run plus binary insertion is a permutation.
* **C265** case analysis over all marks.
* **C266** the last assignment to a dict key wins: induction from the end of the list; frame lemmas of the edge operations.
* **C40, C42, C43** node histories, subgraph and equality on named graphs.

## Findings (claims refuted by a reachable witness)

C01 `set_endpoint2` desynchronises codes; C02/C68/C87 circle-tail edges are dropped; C03/C05 parallel edges; C07 closure
incomplete; C08 stale ancestors; C11 cycle test is never true; C12 a cyclic graph makes the order loop run forever; C24/C53
non-stable skeleton records and keeps too much; C34 caches of other methods accepted; C35 d-separation query may not return;
C41 `sdh`; C42 subgraph order; C43 equality sorts nodes in place; C44 tiers; C45/C46 generators; C47 duplicate key; C49 no
fourth Meek rule; C50 hang on a chordless cycle; C51 order of nodes; C62 PC may return a cycle; C64, C65, C67, C79 queries
with circles or parallel edges; C72, C73, C75, C76, C78 FCI; C80 k-cycle heuristic; C84-C86 GRaSP; C93-C95 GES; C104 the AND rule;
C108 `dag2pag`; C112, C113 CD-NOD; C118, C119, C121 LiNGAM; C125, C128 paths; C133 CausalEffect; C137 Parce; C141 RCD; C145 CAM-UV; C149 mvpc in the unstable mode; C155, C157 GIN; C159, C161-C167, C169, C171-C173 time-series LiNGAM; C175, C176 multi-group LiNGAM; C178 get_sepset; C179 Dag.subgraph; C180 Dag.dag2pag; C181 granger_test_2d; C183, C184 CALM; C186, C187 kernel tests; C188 ANM; C189 PNL; C196, C198, C199 HSIC; C200, C202, C204-C207 kernel scores; C208 find_unshielded_triples, C211-C213 Helper.py; C214, C215 bootstrap; C221 RCIT; C223 KCI; C225 FastKCI; C227, C228 options and missing values; C234, C235, C239 residuals and integer data in LiNGAM; C236 transfer of o-- edges; C237 shared node lists; C240 NaN above the diagonal; C241 parallel edges in to_pgv; C242 repeated to_nx_graph and circles; C243 what matrix_diff cannot see; C244 remove_nodes on the graph's own list; C245 set_nodes; C246 triples added twice; C248 order of rows; C249 eigdec with negative eigenvalues; C250 renaming a node; C251 precision of an empty estimate; C257 RCD on integers; C258 the fingerprint of large data; C260 the cache file; C261 required and own parents in grow-shrink trees; C262 graph remove_attribute and shared attributes; C263 what clear leaves; C264 the order of edges; C265 equality of mirrored edges; C266 repeated node names.

## Trusted base

* Coq 8.16.1 kernel, including its `vm_compute` conversion (used for concrete witnesses and examples).
* The reading of the Python source: no extraction or differential testing is possible here (no dependencies, no network).
* `Print Assumptions` (run by `tools/assumptions.py` on every theorem named in `MANIFEST.json`): all of them answer
  "Closed under the global context" except those of C97-C100, C129-C133, C158-C173, C183-C207, C219-C225, C229, C232-C235, C238, C239, C247, C249 and C254-C257, which are about real numbers and use the standard library's
  `ClassicalDedekindReals.sig_forall_dec`, `ClassicalDedekindReals.sig_not_dec` and
  `FunctionalExtensionality.functional_extensionality_dep` and `Classical_Prop.classic` (the library also seals the operations
  of the reals in the modules `Rdefinitions.RbaseSymbolsImpl` and `RinvImpl`, whose fields a checker may list).  (Files of the standard
  library's `ssr` plugin that are loaded declare `Coq.ssr.ssrunder.Under_rel.*` as module parameters; no theorem depends on them.)
* No section-less variables, functors, module types, `Admitted` or plugins.

## Testing the theorems against wrong programs

`seeded/LOG.jsonl` records every seeded bug: the definition edited, the edit, the claim it breaks, the theorems that fail
and those that had to be tightened.
