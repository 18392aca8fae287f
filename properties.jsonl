{"id": "C01", "title": "Edges are stored in canonical orientation", "statement": "Building an edge from (a,b,ea,eb) and from the mirrored arguments (b,a,eb,ea) describes the same edge: both report the same endpoint at a, the same endpoint at b, and whenever exactly one end is an arrowhead facing a tail or circle the two objects are equal (__eq__) and never point left. Setting an endpoint later keeps the edge canonical and changes only that endpoint.", "quantifier": "all node pairs, all endpoint combinations, all sequences of endpoint updates", "why_tests_cant": "the claim ranges over every endpoint combination and every history of updates, including updates that flip the edge under the caller's feet", "anchors": ["causallearn/graph/Edge.py: Edge.__init__, set_endpoint1, set_endpoint2, get_proximal_endpoint, pointing_left, __eq__"]}
{"id": "C02", "title": "add_edge followed by get_edge returns the edge", "statement": "If two distinct nodes are not adjacent, adding an edge between them makes get_edge return an equal edge (same endpoints at the same nodes), contains_edge true, and leaves the edge between every other pair of nodes unchanged.", "quantifier": "all graphs, all distinct node pairs, all constructible edges with TAIL/ARROW/CIRCLE ends", "why_tests_cant": "must hold in every graph of every size for every pair", "anchors": ["causallearn/graph/GeneralGraph.py: add_edge, get_edge, contains_edge"]}
{"id": "C03", "title": "add_edge never destroys an existing edge", "statement": "Calling add_edge on a pair that already carries an edge either leaves the graph unchanged or ends in a state in which both the old edge and the new one are reported; a refused add changes nothing.", "quantifier": "all graphs and all edges", "why_tests_cant": "ranges over all pre-states including the double-edge codes", "anchors": ["causallearn/graph/GeneralGraph.py: add_edge, contains_edge"]}
{"id": "C04", "title": "Adjacency stays symmetric and irreflexive under every history", "statement": "Starting from an empty graph over n nodes, after any sequence of edge additions between distinct nodes, edge removals and connection removals, is_adjacent_to is symmetric and irreflexive, get_edge(a,b) is None iff get_edge(b,a) is None, and every matrix entry is one of the legal endpoint codes.", "quantifier": "all finite operation histories", "why_tests_cant": "invariant over unbounded histories", "anchors": ["causallearn/graph/GeneralGraph.py: __init__, add_edge, add_directed_edge, remove_edge, remove_connecting_edge"]}
{"id": "C05", "title": "remove_edge undoes add_edge", "statement": "Adding an edge between two non-adjacent nodes and then removing that same edge restores every get_edge answer of the original graph; removing an edge that is not present changes nothing; removal never affects another pair.", "quantifier": "all graphs, pairs, edges", "why_tests_cant": "round trip over all graphs", "anchors": ["causallearn/graph/GeneralGraph.py: add_edge, remove_edge"]}
{"id": "C06", "title": "is_ancestor_of only reports real directed paths", "statement": "In every graph obtained from the empty graph by add_edge/add_directed_edge/remove_edge, is_ancestor_of(a,b) implies a = b or there is a directed path from a to b.", "quantifier": "all histories of edge insertions and removals", "why_tests_cant": "invariant over unbounded histories of an incrementally maintained closure", "anchors": ["causallearn/graph/GeneralGraph.py: adjust_dpath, reconstitute_dpath, add_edge, remove_edge, is_ancestor_of"]}
{"id": "C07", "title": "is_ancestor_of reports every directed path", "statement": "In every graph built by add_edge, if there is a directed path from a to b then is_ancestor_of(a,b) is true, regardless of the order in which the edges were added.", "quantifier": "all graphs and all insertion orders", "why_tests_cant": "quantifies over all insertion orders; the failing orders are never exercised by tests", "anchors": ["causallearn/graph/GeneralGraph.py: adjust_dpath, is_ancestor_of"]}
{"id": "C08", "title": "Ancestor answers are never stale after deletions", "statement": "After an edge is removed by any public removal call, is_ancestor_of no longer reports an ancestor whose only paths used that edge.", "quantifier": "all graphs and removals", "why_tests_cant": "quantifies over all histories", "anchors": ["causallearn/graph/GeneralGraph.py: remove_edge, remove_connecting_edge, remove_connecting_edges", "causallearn/graph/Dag.py: reconstitute_dpath, remove_edge"]}
{"id": "C09", "title": "get_parents / get_children / degree queries agree with the edges", "statement": "b is listed in get_parents(a) exactly when a is listed in get_children(b); both agree with is_parent_of / is_child_of; get_num_edges equals the number of edges returned by get_graph_edges; the sum of get_degree over nodes is twice get_num_edges.", "quantifier": "all well-formed graphs", "why_tests_cant": "ranges over all graphs", "anchors": ["causallearn/graph/GeneralGraph.py: get_parents, get_children, is_parent_of, is_child_of, get_num_edges, get_graph_edges, get_degree"]}
{"id": "C10", "title": "get_ancestors is exactly the reflexive-transitive parent closure", "statement": "get_ancestors(nodes) terminates on every graph (cyclic ones included) and returns, without duplicates, exactly the nodes that have a directed path (of length >= 0) to some node in the argument.", "quantifier": "all graphs, all node lists", "why_tests_cant": "termination and completeness over all graphs", "anchors": ["causallearn/graph/GeneralGraph.py: get_ancestors, collect_ancestors"]}
{"id": "C11", "title": "exists_directed_cycle detects every directed cycle", "statement": "exists_directed_cycle() is true iff some node has a directed path of length >= 1 to itself.", "quantifier": "all graphs", "why_tests_cant": "universal over all graphs", "anchors": ["causallearn/graph/GeneralGraph.py: exists_directed_cycle", "causallearn/utils/GraphUtils.py: exists_directed_path_from_to_breadth_first"]}
{"id": "C12", "title": "Causal ordering is topological", "statement": "For every acyclic directed graph get_causal_ordering terminates and returns each node exactly once, every node after all of its parents.", "quantifier": "all acyclic directed graphs", "why_tests_cant": "termination plus universal claim over all DAGs", "anchors": ["causallearn/utils/GraphUtils.py: get_causal_order", "causallearn/graph/GeneralGraph.py: get_causal_ordering"]}
{"id": "C13", "title": "Structural Hamming distance is a metric", "statement": "For graphs over the same node names SHD is symmetric, zero iff all edges agree, satisfies the triangle inequality, and is bounded by n(n-1)/2.", "quantifier": "all pairs/triples of graphs over a common node set", "why_tests_cant": "algebraic laws over all graphs", "anchors": ["causallearn/graph/SHD.py: SHD"]}
{"id": "C14", "title": "Adjacency confusion counts partition the node pairs", "statement": "tp, fp, fn, tn are non-negative, tp+fp+fn+tn = n(n-1)/2, tp+fn is the number of adjacent pairs of the true graph, tp+fp that of the estimated graph; comparing a graph with itself gives fp=fn=0.", "quantifier": "all pairs of graphs over a common node set", "why_tests_cant": "counting identity over all graphs", "anchors": ["causallearn/graph/AdjacencyConfusion.py: AdjacencyConfusion"]}
{"id": "C15", "title": "Arrow confusion counts partition the ordered pairs", "statement": "For arrows: tp+fn is the number of arrowheads of the truth, tp+fp the number of arrowheads of the estimate, and swapping truth and estimate swaps fp and fn and keeps tp.", "quantifier": "all pairs of graphs", "why_tests_cant": "counting identity over all graphs", "anchors": ["causallearn/graph/ArrowConfusion.py: ArrowConfusion"]}
{"id": "C16", "title": "dag2cpdag returns the completed graph of the equivalence class", "statement": "For every DAG, dag2cpdag returns (it always terminates) a graph with the same adjacencies in which an edge is directed a -> b exactly when every Markov-equivalent DAG (same adjacencies, same unshielded colliders) directs it a -> b, and undirected exactly when two equivalent DAGs disagree on it.", "quantifier": "all DAGs", "why_tests_cant": "universal over all DAGs", "anchors": ["causallearn/utils/DAG2CPDAG.py: dag2cpdag"]}
{"id": "C17", "title": "mec_check decides Markov equivalence", "statement": "For two DAGs over the same nodes mec_check returns true iff they have the same skeleton and the same v-structures, equivalently iff they have the same d-separations.", "quantifier": "all pairs of DAGs", "why_tests_cant": "universal over pairs of DAGs", "anchors": ["causallearn/utils/MECCheck.py: mec_check", "causallearn/utils/DAG2CPDAG.py: dag2cpdag"]}
{"id": "C18", "title": "pdag2dag returns a consistent extension", "statement": "Whenever pdag2dag returns, the result has the same adjacencies as the input, keeps every directed edge, contains only directed edges, is acyclic and has no v-structure that the PDAG did not already have.", "quantifier": "all PDAGs on which the call returns", "why_tests_cant": "universal over PDAGs", "anchors": ["causallearn/utils/PDAG2DAG.py: pdag2dag"]}
{"id": "C19", "title": "pdag2dag returns exactly on extendable PDAGs", "statement": "pdag2dag returns if and only if the PDAG has a consistent extension (a DAG with the same adjacencies, the same directed edges and no new unshielded collider).", "quantifier": "all PDAGs", "why_tests_cant": "termination over all inputs", "anchors": ["causallearn/utils/PDAG2DAG.py: pdag2dag"]}
{"id": "C20", "title": "Meek orientation is conservative", "statement": "meek() returns a graph with the same adjacencies, keeps every already directed edge, and only turns undirected edges into directed ones; it terminates on every input.", "quantifier": "all causal graphs", "why_tests_cant": "universal plus termination", "anchors": ["causallearn/utils/PCUtils/Meek.py: meek"]}
{"id": "C21", "title": "Meek orientation is sound", "statement": "Every edge directed by meek() is directed the same way in every acyclic extension of the input that creates no new unshielded collider.", "quantifier": "all PDAGs and all consistent extensions", "why_tests_cant": "quantifies over all extensions", "anchors": ["causallearn/utils/PCUtils/Meek.py: meek"]}
{"id": "C22", "title": "Meek orientation respects background knowledge", "statement": "meek() with background knowledge never orients an edge a->b when a->b is forbidden or b->a is required.", "quantifier": "all graphs, all background knowledge", "why_tests_cant": "universal", "anchors": ["causallearn/utils/PCUtils/Meek.py: meek", "causallearn/utils/PCUtils/BackgroundKnowledge.py"]}
{"id": "C23", "title": "Skeleton search with a perfect oracle finds the true adjacencies", "statement": "If the independence test answers like d-separation in a DAG, skeleton discovery (stable or not) returns exactly the adjacencies of the DAG.", "quantifier": "all oracles faithful to some adjacency structure, all graph sizes", "why_tests_cant": "ranges over all oracles and sizes", "anchors": ["causallearn/utils/PCUtils/SkeletonDiscovery.py: skeleton_discovery", "causallearn/utils/FAS.py: fas"]}
{"id": "C24", "title": "Removed edges carry a genuine separating set", "statement": "When skeleton discovery removes the edge x-y because of a test, the separating set recorded for (x,y) is the one recorded for (y,x) and makes x and y test as independent.", "quantifier": "all data sets / oracles", "why_tests_cant": "universal over oracles", "anchors": ["causallearn/utils/PCUtils/SkeletonDiscovery.py: skeleton_discovery", "causallearn/utils/PCUtils/Helper.py: append_value"]}
{"id": "C25", "title": "PC-stable skeleton is order independent", "statement": "With stable=True the adjacencies returned by skeleton discovery do not depend on the order of the variables.", "quantifier": "all oracles, all permutations", "why_tests_cant": "quantifies over all permutations", "anchors": ["causallearn/utils/PCUtils/SkeletonDiscovery.py: skeleton_discovery"]}
{"id": "C26", "title": "Background knowledge: forbidden and required queries", "statement": "After any history of add/remove calls is_forbidden(a,b) is true iff some rule currently in force forbids it (node rule, name pattern, or a strictly later tier of a), and likewise is_required.", "quantifier": "all histories of knowledge edits", "why_tests_cant": "history-quantified", "anchors": ["causallearn/utils/PCUtils/BackgroundKnowledge.py"]}
{"id": "C27", "title": "ChoiceGenerator enumerates every combination exactly once", "statement": "Repeated next() yields all b-element subsets of {0..a-1}, each exactly once, in lexicographic order, then None forever.", "quantifier": "all a >= b >= 0", "why_tests_cant": "ranges over all sizes", "anchors": ["causallearn/utils/ChoiceGenerator.py: ChoiceGenerator"]}
{"id": "C28", "title": "DepthChoiceGenerator enumerates all subsets up to a size", "statement": "Repeated next() yields every subset of {0..a-1} of size at most depth exactly once, by size, then None.", "quantifier": "all a, depth", "why_tests_cant": "ranges over all sizes", "anchors": ["causallearn/utils/DepthChoiceGenerator.py: DepthChoiceGenerator"]}
{"id": "C29", "title": "Priority queue pops a live minimum", "statement": "After any history of push/delete/pop, pop returns an entry of least priority among the live ones, each live entry is returned once, and empty() is true iff nothing live is left.", "quantifier": "all histories", "why_tests_cant": "history-quantified", "anchors": ["causallearn/utils/PriorityQueue.py: PriorityQueue"]}
{"id": "C30", "title": "Exact search returns a best-scoring DAG", "statement": "The dynamic-programming and A* exact searches return an acyclic graph respecting the allowed-parents and size limits whose total local score is not beaten by any other such graph.", "quantifier": "all score functions, sizes, constraints", "why_tests_cant": "optimality over all DAGs", "anchors": ["causallearn/search/ScoreBased/ExactSearch.py"]}
{"id": "C31", "title": "Permutation searches return a DAG consistent with the order", "statement": "BOSS and GRaSP keep their variable order a permutation throughout, choose parents only among predecessors, hence their graph is acyclic, and the total score never decreases between accepted moves.", "quantifier": "all score functions, random choices and sizes", "why_tests_cant": "all random schedules", "anchors": ["causallearn/search/PermutationBased/BOSS.py", "causallearn/search/PermutationBased/GRaSP.py", "causallearn/search/PermutationBased/gst.py"]}
{"id": "C32", "title": "Local score cache is transparent", "statement": "Every answer of the cached local score equals what the underlying score function returns for some previously or currently requested ordering of the same parent set; if the score is order independent the cache is invisible.", "quantifier": "all call histories", "why_tests_cant": "history-quantified", "anchors": ["causallearn/score/LocalScoreFunctionClass.py: LocalScoreClass.score"]}
{"id": "C33", "title": "Independence-test cache is transparent and symmetric", "statement": "The p-value returned for (X,Y,S) does not depend on the order of X and Y or on order or repetition in S, and a cached answer is the answer computed for exactly that query.", "quantifier": "all call histories, all queries", "why_tests_cant": "history-quantified plus key injectivity", "anchors": ["causallearn/utils/cit.py: get_formatted_XYZ_and_cachekey, __call__"]}
{"id": "C34", "title": "A p-value cache of another test is rejected", "statement": "Loading a p-value cache file written by one test method into another method is refused.", "quantifier": "all pairs of methods and cache files", "why_tests_cant": "universal", "anchors": ["causallearn/utils/cit.py: check_cache_method_consistent"]}
{"id": "C35", "title": "d-separation queries are correct", "statement": "On every DAG is_dseparated_from(x,y,Z) answers true iff x and y are d-separated by Z.", "quantifier": "all DAGs, x, y, Z", "why_tests_cant": "universal", "anchors": ["causallearn/utils/GraphUtils.py: is_dconnected_to, reachable, is_ancestor"]}
{"id": "C36", "title": "FCI orientation keeps adjacencies and only refines circles", "statement": "Each FCI orientation rule keeps the adjacencies and never turns an arrowhead into a tail or a tail into an arrowhead.", "quantifier": "all PAGs", "why_tests_cant": "universal", "anchors": ["causallearn/search/ConstraintBased/FCI.py: rulesR1R2cycle, ruleR3, ruleR5..R10, rule0"]}
{"id": "C37", "title": "Semi-directed path search is exact", "statement": "existsSemiDirectedPath(a,b,G) is true iff there is a semi-directed path of length at least one from a to b.", "quantifier": "all graphs", "why_tests_cant": "universal", "anchors": ["causallearn/search/ConstraintBased/FCI.py: existsSemiDirectedPath"]}
{"id": "C38", "title": "Graph text round trip", "statement": "Writing a graph with str(graph) and reading the text with txt2generalgraph gives back the same node names in the same order and the same edges, except that an edge A o-- B with A listed before B is dropped; without such an edge the matrix and the list of edges are identical.", "quantifier": "all graphs with at least one node, any edges, and names that are not empty, contain no white space and no semicolon and are not 'Nodes:'", "why_tests_cant": "every graph, every name, every mixture of edge marks and double edges", "anchors": ["causallearn/utils/TXT2GeneralGraph.py: txt2generalgraph", "causallearn/utils/GraphUtils.py: graph_string"]}
{"id": "C39", "title": "GES never lowers the score", "statement": "Every accepted insertion or deletion of GES strictly improves the total score, so the reported score is the score of the reported graph and GES terminates.", "quantifier": "all score functions", "why_tests_cant": "universal", "anchors": ["causallearn/search/ScoreBased/GES.py: ges"]}
{"id": "C40", "title": "remove_node keeps all other edges", "statement": "Removing a node leaves every edge between the other nodes unchanged and the node-to-index bookkeeping consistent, in any history of node additions and removals.", "quantifier": "all histories", "why_tests_cant": "history-quantified", "anchors": ["causallearn/graph/GeneralGraph.py: add_node, remove_node", "causallearn/graph/Dag.py: remove_node"]}
{"id": "C41", "title": "Structural Hamming distance of GraphUtils counts every differing pair", "statement": "GraphUtils.sdh(g1,g2) returns a number for all graphs on the same nodes, is symmetric, counts every pair of nodes once, and a reversed edge costs 1.", "quantifier": "all pairs of graphs on the same nodes", "why_tests_cant": "universal over all graph pairs", "anchors": ["causallearn/utils/GraphUtils.py: sdh, shd_one_edge"]}
{"id": "C42", "title": "subgraph keeps exactly the edges among the requested nodes", "statement": "graph.subgraph(nodes) contains the requested nodes and, between any two of them, exactly the edge the original graph has, whatever order the nodes are given in.", "quantifier": "all graphs, all node lists", "why_tests_cant": "universal over graphs and orders of the node list", "anchors": ["causallearn/graph/GeneralGraph.py: subgraph"]}
{"id": "C43", "title": "Graph equality compares named nodes and edges and has no side effects", "statement": "g == h holds exactly when both graphs have the same named nodes and the same edges between them, and evaluating it changes neither graph.", "quantifier": "all pairs of graphs", "why_tests_cant": "universal, and the side effect shows only in later queries", "anchors": ["causallearn/graph/GeneralGraph.py: __eq__"]}
{"id": "C44", "title": "Tier membership is a single-valued relation", "statement": "A node is in at most one tier at a time, and removing it from a tier it is not in changes nothing.", "quantifier": "all histories of tier edits", "why_tests_cant": "history-quantified", "anchors": ["causallearn/utils/PCUtils/BackgroundKnowledge.py: add_node_to_tier, remove_node_from_tier, tier_map"]}
{"id": "C45", "title": "Combinations handed out stay as they were", "statement": "A combination returned by ChoiceGenerator.next() is not changed by later next() calls.", "quantifier": "all sizes, all call histories", "why_tests_cant": "aliasing shows only when the caller keeps an earlier result", "anchors": ["causallearn/utils/ChoiceGenerator.py: next", "causallearn/search/ConstraintBased/FCI.py: removeByPossibleDsep"]}
{"id": "C46", "title": "Exhausted generators stay exhausted", "statement": "After the first None every further next() answers None.", "quantifier": "all sizes, all call histories", "why_tests_cant": "ranges over all sizes", "anchors": ["causallearn/utils/ChoiceGenerator.py", "causallearn/utils/DepthChoiceGenerator.py"]}
{"id": "C47", "title": "Pushing a key again", "statement": "Pushing a key that is already queued behaves like queueing a second entry: both are popped.", "quantifier": "all histories", "why_tests_cant": "history-quantified", "anchors": ["causallearn/utils/PriorityQueue.py: push, pop"]}
{"id": "C48", "title": "Meek exhausts its rules", "statement": "When meek() returns, each of its three rules that still applies is withheld only by the background knowledge or by a reported directed cycle; on an extendable graph without knowledge nothing is withheld.", "quantifier": "all graphs, all knowledge", "why_tests_cant": "all graph shapes and all iteration counts of the loop", "anchors": ["causallearn/utils/PCUtils/Meek.py: meek"]}
{"id": "C49", "title": "Meek output is maximally oriented", "statement": "An edge that has the same direction in every consistent extension of the input is directed in the output of meek().", "quantifier": "all graphs with some directed edges", "why_tests_cant": "quantifies over all consistent extensions", "anchors": ["causallearn/utils/PCUtils/Meek.py: meek"]}
{"id": "C50", "title": "pdag2dag returns on every PDAG", "statement": "pdag2dag terminates whatever partially directed graph it is given.", "quantifier": "all PDAGs", "why_tests_cant": "non-termination", "anchors": ["causallearn/utils/PDAG2DAG.py: pdag2dag"]}
{"id": "C51", "title": "mec_check does not depend on the order in which nodes are listed", "statement": "mec_check on two DAG objects depends only on the graphs over node names: listing the nodes of one of them in another order does not change the answer.", "quantifier": "all pairs of DAGs and node orders", "why_tests_cant": "universal over node orders", "anchors": ["causallearn/utils/MECCheck.py: mec_check"]}
{"id": "C52", "title": "Forbidden edges are absent from a stable skeleton", "statement": "When the skeleton search runs in stable mode with background knowledge that forbids an edge in both directions, the returned graph has no edge between these two variables, whatever the independence test answers.", "quantifier": "every number of variables, every test, every background knowledge, every depth limit of fas", "why_tests_cant": "depends on every test outcome at every depth", "anchors": ["causallearn/utils/PCUtils/SkeletonDiscovery.py: skeleton_discovery", "causallearn/utils/Fas.py: fas"]}
{"id": "C53", "title": "Forbidden edges are absent from a non-stable skeleton", "statement": "The same with stable=False: an edge forbidden in both directions is absent from the returned skeleton.", "quantifier": "every number of variables, every test, every background knowledge", "why_tests_cant": "depends on every test outcome at every depth", "anchors": ["causallearn/utils/PCUtils/SkeletonDiscovery.py: skeleton_discovery", "causallearn/utils/Fas.py: fas"]}
{"id": "C54", "title": "Skeleton search terminates and its edges mean what they say", "statement": "For an arbitrary test the search terminates; the result is an undirected graph on all variables; an edge is absent only if knowledge forbids it or the test accepted independence for that pair given some set of other variables; an edge is present only if the test rejects independence given every subset of the final neighbours of either end (up to the depth limit).", "quantifier": "every number of variables, every test function, both modes, every depth limit", "why_tests_cant": "quantifies over all test outcomes and all subsets of neighbours", "anchors": ["causallearn/utils/PCUtils/SkeletonDiscovery.py: skeleton_discovery", "causallearn/utils/Fas.py: fas"]}
{"id": "C55", "title": "With a perfect test recorded separating sets separate", "statement": "If the test answers d-separation in a DAG, then for every non-adjacent pair the set returned by fas is the same for both orders of the pair and d-separates the pair; among the sets recorded by skeleton_discovery at least one d-separates the pair.", "quantifier": "every DAG, every non-adjacent pair, both modes", "why_tests_cant": "needs a d-separation argument for unions of separating sets in every DAG", "anchors": ["causallearn/utils/PCUtils/SkeletonDiscovery.py: skeleton_discovery", "causallearn/utils/Fas.py: fas"]}
{"id": "C56", "title": "Stable search records symmetric unions of minimal separating sets", "statement": "In stable mode without knowledge the sets recorded for a removed pair are identical for both orders; each is a union of sets that the test accepted and that are of minimal size among tried sets (no proper subset accepted); a surviving pair has no recorded set.", "quantifier": "every number of variables, every order-free test", "why_tests_cant": "quantifies over all test outcomes and all subsets", "anchors": ["causallearn/utils/PCUtils/SkeletonDiscovery.py: skeleton_discovery", "causallearn/utils/Fas.py: fas"]}
{"id": "C57", "title": "PC with a perfect test returns the CPDAG", "statement": "When the independence test answers exactly d-separation in some DAG over the variables and no background knowledge is given, pc() returns (without raising) and its graph is the completed partially directed graph of that DAG: same adjacencies, an edge directed exactly when every Markov equivalent DAG directs it that way, all other edges undirected. This holds for stable and non-stable search, for every collider rule (sepset, maxp, definite maxp) and every priority the rule accepts.", "quantifier": "every number of variables, every DAG on them, every test agreeing with its d-separations, every mode", "why_tests_cant": "Tests compare PC with a handful of small graphs; completeness of the orientation rules is a theorem over all DAGs.", "anchors": ["causallearn/search/ConstraintBased/PC.py: pc_alg", "causallearn/utils/PCUtils/UCSepset.py: uc_sepset, maxp, definite_maxp", "causallearn/utils/PCUtils/Meek.py: meek, definite_meek", "causallearn/utils/PCUtils/SkeletonDiscovery.py: skeleton_discovery"]}
{"id": "C58", "title": "meek completes a pattern", "statement": "Applied to the pattern of a DAG (its adjacencies with exactly the arrows of its unshielded colliders), meek returns the CPDAG of the DAG, although it implements only three rules.", "quantifier": "every DAG and every graph that is its pattern", "why_tests_cant": "Completeness of the three rules needs the theory of Markov equivalence; no finite set of graphs settles it.", "anchors": ["causallearn/utils/PCUtils/Meek.py: meek, definite_meek"]}
{"id": "C59", "title": "Collider orientation only creates the arrowheads it should", "statement": "uc_sepset keeps nodes and adjacencies; every new arrowhead at b on a-b belongs to an unshielded triple a,b,c whose two arrows the background knowledge accepts and all of whose recorded separating sets omit b. Unless priority 1 is chosen the result has only directed and undirected edges. With priority 1 every such triple ends as a collider; with priorities 2-4 no existing arrow is turned, every new arrow takes part in an unshielded collider, and each such triple ends as a collider unless one of its edges points away from the middle.", "quantifier": "every partially directed graph, every table of separating sets (also wrong ones), every knowledge and priority", "why_tests_cant": "The order in which triples are treated and the conflicts between them range over all graphs.", "anchors": ["causallearn/utils/PCUtils/UCSepset.py: uc_sepset, maxp, definite_maxp"]}
{"id": "C60", "title": "pc() respects background knowledge", "statement": "In the graph pc() returns, an arrowhead that the background knowledge forbids occurs only if the knowledge forbids both directions of that edge, and with stable search it never occurs; an edge about which the knowledge makes a non-contradictory demand is directed as demanded. This holds whatever the test answers.", "quantifier": "every test, every knowledge, every mode", "why_tests_cant": "Later phases (colliders, Meek) must not undo earlier ones, for all tests.", "anchors": ["causallearn/search/ConstraintBased/PC.py: pc_alg", "causallearn/utils/PCUtils/UCSepset.py: uc_sepset, maxp, definite_maxp", "causallearn/utils/PCUtils/Meek.py: meek, definite_meek", "causallearn/utils/PCUtils/SkeletonDiscovery.py: skeleton_discovery", "causallearn/utils/PCUtils/BackgroundKnowledgeOrientUtils.py: orient_by_background_knowledge"]}
{"id": "C61", "title": "pc() always returns", "statement": "pc() returns a graph and raises no exception in its three phases, for every test (also an inconsistent one), every knowledge and every valid mode; its adjacencies are those found by the skeleton search; unless priority 1 is chosen every edge is directed or undirected.", "quantifier": "every test, every knowledge, every valid mode, every number of variables", "why_tests_cant": "An exception may hide behind a combination of answers (a pair without recorded set, an empty maximum) that tests never produce.", "anchors": ["causallearn/search/ConstraintBased/PC.py: pc_alg", "causallearn/utils/PCUtils/UCSepset.py: uc_sepset, maxp, definite_maxp", "causallearn/utils/PCUtils/Meek.py: meek, definite_meek", "causallearn/utils/PCUtils/SkeletonDiscovery.py: skeleton_discovery"]}
{"id": "C62", "title": "pc() returns no directed cycle", "statement": "The directed edges of the graph pc() returns form no cycle. Holds when the test is a perfect oracle; refuted in general: a symmetric, order-independent test on six variables makes the default mode return 0->1->2->0.", "quantifier": "every test", "why_tests_cant": "A cycle appears only under particular inconsistent answers.", "anchors": ["causallearn/search/ConstraintBased/PC.py: pc_alg", "causallearn/utils/PCUtils/UCSepset.py: uc_sepset, maxp, definite_maxp"]}
{"id": "C63", "title": "Out-degree and maximal degree are exact", "statement": "get_outdegree(i) is the number of edges listed by get_node_edges(i) that show a tail at i; get_max_degree is attained by some node and bounds every node's degree.", "quantifier": "every well-formed graph and node", "why_tests_cant": "must hold for every graph reachable by any history of edits, including parallel edges", "anchors": ["causallearn/graph/GeneralGraph.py: get_outdegree, get_max_degree, get_degree, get_node_edges"]}
{"id": "C64", "title": "In-degree counts arrowheads", "statement": "get_indegree(i) is the number of edges at i that show an arrowhead at i (and is_exogenous says whether there is none). Refuted when a bidirected edge is parallel to an edge with a tail at i: that arrowhead is not counted, and is_exogenous answers True.", "quantifier": "every well-formed graph and node", "why_tests_cant": "must hold for every graph reachable by any history of edits, including parallel edges", "anchors": ["causallearn/graph/GeneralGraph.py: get_indegree, is_exogenous"]}
{"id": "C65", "title": "get_nodes_into / get_nodes_out_of list exactly the nodes with the given mark", "statement": "get_nodes_into(i, p) lists exactly the nodes j having an edge with i that shows mark p at i, get_nodes_out_of(i, p) those with mark p at j. Refuted for arrowheads of a bidirected edge parallel to an edge with a tail.", "quantifier": "every well-formed graph, node and mark", "why_tests_cant": "must hold for every graph reachable by any history of edits, including parallel edges", "anchors": ["causallearn/graph/GeneralGraph.py: get_nodes_into, get_nodes_out_of"]}
{"id": "C66", "title": "is_def_collider is exact", "statement": "On graphs without parallel edges is_def_collider(a,b,c) never raises and answers True exactly when both edges exist and have an arrowhead at b.", "quantifier": "every graph without parallel edges, all nodes", "why_tests_cant": "must hold for every graph reachable by any history of edits, including parallel edges", "anchors": ["causallearn/graph/GeneralGraph.py: is_def_collider"]}
{"id": "C67", "title": "is_def_noncollider is exact", "statement": "is_def_noncollider(a,b,c) is True exactly when one of the edges points away from b, or b carries two circles and a, c are not adjacent. The first part is proved; the second is refuted (the method tests adjacency of a and b instead of a and c).", "quantifier": "every graph without parallel edges", "why_tests_cant": "must hold for every graph reachable by any history of edits, including parallel edges", "anchors": ["causallearn/graph/GeneralGraph.py: is_def_noncollider"]}
{"id": "C68", "title": "contains_edge agrees with the edge list", "statement": "contains_edge(e) is True exactly when e is among the edges reported between its two nodes, also with parallel edges. Refuted for circle-tail edges: an edge returned by get_edge is then denied.", "quantifier": "every well-formed graph and edge", "why_tests_cant": "must hold for every graph reachable by any history of edits, including parallel edges", "anchors": ["causallearn/graph/GeneralGraph.py: contains_edge, get_edge, get_node_edges"]}
{"id": "C69", "title": "Adjacency, orientation and trek tests are mutually consistent", "statement": "is_adjacent_to, is_directly_connected_to and get_adjacent_nodes agree and are symmetric; is_directed_from_to / is_undirected_from_to are exactly the directed / undirected edges; exists_trek(a,b) implies a common ancestor.", "quantifier": "every well-formed graph (treks: every graph built without parallel edges), all nodes", "why_tests_cant": "must hold for every graph reachable by any history of edits, including parallel edges", "anchors": ["causallearn/graph/GeneralGraph.py: is_adjacent_to, is_directly_connected_to, get_adjacent_nodes, is_directed_from_to, is_undirected_from_to, exists_trek"]}
{"id": "C70", "title": "fci returns on every test", "statement": "fci() always returns a graph whose marks are tails, arrowheads and circles, whatever the independence test answers and whatever knowledge is given.", "quantifier": "every test, knowledge, depth, path-length bound, set order", "why_tests_cant": "An endless orientation loop appears only under particular answers of the test.", "anchors": ["causallearn/search/ConstraintBased/FCI.py: fci, rule loops"]}
{"id": "C71", "title": "Meaning of the adjacencies fci returns", "statement": "If fci() returns two variables without an edge, then some conditioning set the test was asked about (or the knowledge) separates them; with a perfect oracle over a DAG with latent variables every pair that no set of observed variables separates is adjacent in the output.", "quantifier": "every test; every DAG with latent variables and its oracle", "why_tests_cant": "quantifies over all tests and all DAGs", "anchors": ["causallearn/search/ConstraintBased/FCI.py: fci, getPossibleDsep, removeByPossibleDsep", "causallearn/utils/Fas.py: fas"]}
{"id": "C72", "title": "The graph fci returns is closed under the orientation rules", "statement": "No orientation rule is still applicable to the graph fci() returns. Proved for R1, R2, R6, R7, R9, for R3 under an oracle without latents, and for R8 when the first node has the smaller index; and for R5 under an oracle without latents (cycles of any length); refuted for R8 in the other order, and for R4, R5 and R10 in general.", "quantifier": "every test and knowledge", "why_tests_cant": "quantifies over all runs", "anchors": ["causallearn/search/ConstraintBased/FCI.py: rulesR1R2cycle, ruleR3, ruleR6, ruleR7, rule8, rule9"]}
{"id": "C73", "title": "fci respects background knowledge", "statement": "An edge that knowledge forbids in one direction gets no such orientation from fci(); a required edge that survives is oriented as required. The first is proved; the second holds only as stated in the partial theorem and is refuted when the skeleton search removes nothing but rule order interferes.", "quantifier": "every test and knowledge", "why_tests_cant": "quantifies over all tests", "anchors": ["causallearn/search/ConstraintBased/FCI.py: fci, fci_orient_bk, is_arrow_point_allowed"]}
{"id": "C74", "title": "rule0 orients exactly the unshielded colliders", "statement": "rule0 puts an arrowhead at b from a exactly when some unshielded triple a, b, c has b outside the recorded separating set, and changes nothing else; with a perfect oracle without latents the unshielded colliders fci() returns are those of the DAG.", "quantifier": "every graph and every table of separating sets; every DAG", "why_tests_cant": "quantifies over all graphs", "anchors": ["causallearn/search/ConstraintBased/FCI.py: rule0, fci"]}
{"id": "C75", "title": "fci is sound and complete with latent variables", "statement": "With a perfect oracle over a DAG with latent variables the graph fci() returns has exactly the adjacencies of the MAG and no arrowhead or tail contradicting it. Refuted twice: rule 9 follows a path through A itself, and the Possible-D-Sep search leaves a separable pair adjacent.", "quantifier": "every DAG with latent variables", "why_tests_cant": "the failing DAGs are rare", "anchors": ["causallearn/search/ConstraintBased/FCI.py: rule9, getPossibleDsep, removeByPossibleDsep"]}
{"id": "C76", "title": "Edge labels returned by fci", "statement": "The edges fci() returns are exactly the edges of the graph it returns, and a \"definitely visible\" / \"definitely direct\" label is given exactly on the conditions in the documentation. Labels are given to directed edges only (proved); the visible label is refuted: a directed edge with a witness at distance two through a collider path is never labelled visible.", "quantifier": "every run", "why_tests_cant": "quantifies over runs", "anchors": ["causallearn/search/ConstraintBased/FCI.py: get_color_edges, visibleEdgeHelper"]}
{"id": "C77", "title": "The finders of CausalGraph list exactly the edges, triples and conditioning sets", "statement": "find_undirected, find_fully_directed and find_bi_directed list exactly the edges of their kind, each once; on a graph without circle marks find_adj, find_unshielded_triples, find_triangles and find_kites list exactly the adjacencies, unshielded triples, triangles and kites, each once; find_cond_sets lists exactly the sets of neighbours of either node.", "quantifier": "every well-formed graph", "why_tests_cant": "must hold for every graph", "anchors": ["causallearn/graph/GraphClass.py: find_*, is_undirected, is_fully_directed"]}
{"id": "C78", "title": "Soundness of the marks fci returns", "statement": "Every arrowhead fci() returns is a non-ancestor relation in the DAG and every tail an ancestor relation. Each of R1, R2, R3, R4, R8, R9 (given an uncovered path) and R10 is sound; fci() is sound on triangle-free DAGs without latents; refuted in general because R5 does not check that the path ends are uncovered.", "quantifier": "every DAG and its oracle", "why_tests_cant": "quantifies over all DAGs", "anchors": ["causallearn/search/ConstraintBased/FCI.py: rulesR1R2cycle, ruleR3, ruleR4B, ruleR5, rule8, rule9, rule10"]}
{"id": "C79", "title": "The finders of CausalGraph on graphs with circle marks", "statement": "find_adj and the triple finders list every adjacency in both directions on every graph. Refuted: a circle-circle edge is listed by none, a circle-arrow edge in one direction only.", "quantifier": "every well-formed graph", "why_tests_cant": "needs a PAG", "anchors": ["causallearn/graph/GraphClass.py: find_adj"]}
{"id": "C80", "title": "A* exact search stays exact with the k-cycle conflict heuristic", "statement": "bic_exact_search(X, search_method='astar', use_k_cycle_heuristic=True) returns, like the default heuristic, a DAG whose total BIC score is optimal among all DAGs that satisfy the constraints, because the heuristic never overestimates the remaining cost.", "quantifier": "every local score function, every number of variables and parent constraint, every k, every tie breaking of the priority queue", "why_tests_cant": "The heuristic looks at all patterns of up to k variables; whether it overestimates depends on the scores of every parent set of every variable, and a test that compares with the optimum on a few data sets where it happens to be found says nothing about others.", "anchors": ["causallearn/search/ScoreBased/ExactSearch.py: create_dynamic_pd, compute_dynamic_h, astar_search_exact"]}
{"id": "C81", "title": "BOSS stops in a local optimum", "statement": "boss() terminates, its final order scores at least as much as the initial one, and moving any single variable to any other position gains less than 1e-6; the reported parents of every variable are those its grow-shrink tree chooses among the variables before it.", "quantifier": "every score function of parent sets, every number of variables, every outcome of the random shuffles, verbose on or off", "why_tests_cant": "quantifies over all score functions and all random shuffles; termination is a claim about every run", "anchors": ["causallearn/search/PermutationBased/BOSS.py: boss, better_mutation", "causallearn/search/PermutationBased/gst.py: GST"]}
{"id": "C82", "title": "A grow-shrink tree query is history independent", "statement": "The parents and the score a grow-shrink tree returns for a variable and a set of predecessors do not depend on the queries made before (the tree is only a cache); they are distinct predecessors, score at least as much as no parents, and cannot be improved by dropping one; only the set of predecessors matters, not its order.", "quantifier": "every score function, every sequence of earlier queries", "why_tests_cant": "the tree is grown lazily by arbitrary query histories", "anchors": ["causallearn/search/PermutationBased/gst.py: GST.trace, GSTNode.grow, GSTNode.shrink"]}
{"id": "C83", "title": "GRaSP's depth-first search", "statement": "Throughout grasp() every variable keeps exactly the parents and local score chosen for its predecessors; a failed search leaves order, parents, scores and edge count as they were; a successful one of depth d raises the score by more than (2-d)*1e-6; if order scores never differ by less than 1e-6 grasp() terminates at an order at least as good as the initial one; tuck(i,j) moves exactly the ancestors of the i-th variable that lie after j in front of j, keeping relative orders.", "quantifier": "every score function, random shuffles, depth, number of variables", "why_tests_cant": "all shuffles, all score functions, all search depths", "anchors": ["causallearn/search/PermutationBased/GRaSP.py: grasp, dfs, update", "causallearn/search/PermutationBased/GRaSP.py: Order.tuck"]}
{"id": "C84", "title": "GRaSP returns an order that no single tuck improves", "statement": "At the order grasp() returns, no tuck of a variable before one of its parents raises the score by more than 1e-6.", "quantifier": "every score function, every shuffle, every depth >= 1", "why_tests_cant": "all score functions", "anchors": ["causallearn/search/PermutationBased/GRaSP.py: dfs"]}
{"id": "C85", "title": "Grow-shrink adds the best parent first", "statement": "The parents chosen among the predecessors score at least as much as every single predecessor (greedy growing takes the best candidate first).", "quantifier": "every score function", "why_tests_cant": "all score functions", "anchors": ["causallearn/search/PermutationBased/gst.py: GSTNode.grow"]}
{"id": "C86", "title": "GRaSP's edge count", "statement": "The number of edges grasp() keeps and prints is the number of edges of its graph.", "quantifier": "every score function, shuffle and depth", "why_tests_cant": "all score functions", "anchors": ["causallearn/search/PermutationBased/GRaSP.py: grasp, dfs, update"]}
{"id": "C87", "title": "Every graph survives the text round trip", "statement": "str(graph) read back by txt2generalgraph gives the same nodes and edges for every graph. Refuted: the graph without nodes comes back with a node 'Graph Edges:', and every edge A o-- B with A listed first is lost.", "quantifier": "all graphs", "why_tests_cant": "the edge marks FCI produces and the empty graph are not covered by the sample files", "anchors": ["causallearn/utils/TXT2GeneralGraph.py: txt2generalgraph", "causallearn/utils/GraphUtils.py: graph_string", "causallearn/graph/GeneralGraph.py: add_edge"]}
{"id": "C88", "title": "GES forward phase ends in a local optimum", "statement": "For a score-equivalent set score, the class in which the forward phase of ges ends is a local optimum: no DAG of the class gets a better score by adding one edge to a variable with at most maxP compelled parents; the phase examines every such addition through its Insert operators.", "quantifier": "all numbers of variables, scores and maxP", "why_tests_cant": "needs the completeness of the operators for every equivalence class", "anchors": ["causallearn/search/ScoreBased/GES.py: ges", "causallearn/utils/GESUtils.py"]}
{"id": "C89", "title": "GES result is locally optimal for deletions", "statement": "For a score-equivalent set score, no DAG of the class returned by ges gets a better score by removing one edge.", "quantifier": "all numbers of variables, scores and maxP", "why_tests_cant": "needs the completeness of the Delete operators for every equivalence class", "anchors": ["causallearn/search/ScoreBased/GES.py: ges", "causallearn/utils/GESUtils.py"]}
{"id": "C90", "title": "GES forward phase ends in a Markov class for consistent scores", "statement": "If the local score improves exactly when the added parent depends on the child given the other parents, then in every DAG of the class in which the unrestricted forward phase ends each variable is independent, given its parents, of each variable that is neither its parent nor its descendant.", "quantifier": "all numbers of variables, dependence relations and consistent scores", "why_tests_cant": "universal over dependence models", "anchors": ["causallearn/search/ScoreBased/GES.py: ges", "causallearn/utils/GESUtils.py"]}
{"id": "C91", "title": "GES finds every adjacency the data always support", "statement": "If for two variables the score improves when one is added to the parents of the other, whatever the other parents are, then the graph returned by an unrestricted ges joins them.", "quantifier": "all scores and pairs of variables", "why_tests_cant": "universal over scores", "anchors": ["causallearn/search/ScoreBased/GES.py: ges", "causallearn/utils/GESUtils.py"]}
{"id": "C92", "title": "GES terminates with a completed graph for every score", "statement": "For every score that depends on the set of parents only (score-equivalent or not), ges terminates; its phases walk between equivalence classes by single-edge additions, then removals; the returned graph is the completed graph of a DAG, and the running score strictly decreases from the score of the empty graph to the reported one.", "quantifier": "all set scores, numbers of variables and maxP", "why_tests_cant": "termination and the class invariant range over all executions", "anchors": ["causallearn/search/ScoreBased/GES.py: ges", "causallearn/utils/GESUtils.py"]}
{"id": "C93", "title": "maxP bounds the number of parents", "statement": "(claim refuted) The graph returned by ges(maxP=k) has a DAG in its class in which every variable has at most k parents.", "quantifier": "all scores and k", "why_tests_cant": "needs the right counterexample", "anchors": ["causallearn/search/ScoreBased/GES.py: ges", "causallearn/utils/GESUtils.py"]}
{"id": "C94", "title": "Record['G_step1'] holds the graphs of the steps", "statement": "(claim refuted) The k-th entry of Record['G_step1'] is the class reached after k forward updates.", "quantifier": "all scores", "why_tests_cant": "aliasing of the recorded graph objects", "anchors": ["causallearn/search/ScoreBased/GES.py: ges", "causallearn/utils/GESUtils.py"]}
{"id": "C95", "title": "Record['score'] is the score of Record['G']", "statement": "(claim refuted for scores that are not score equivalent, such as the cross-validated ones) the reported score is the score of a consistent extension of the returned graph.", "quantifier": "all set scores", "why_tests_cant": "needs the right score", "anchors": ["causallearn/search/ScoreBased/GES.py: ges", "causallearn/utils/GESUtils.py"]}
{"id": "C96", "title": "The BDeu score is score equivalent", "statement": "DAGs with the same adjacencies and unshielded colliders get the same total local_score_BDeu, for every data table, state counts, sample prior and structure prior, and the local score does not depend on the order in which the parents are listed; so greedy equivalence search with BDeu has the properties proved for score-equivalent scores.", "quantifier": "all data tables, DAGs, priors", "why_tests_cant": "ranges over all pairs of equivalent DAGs and all data", "anchors": ["causallearn/score/LocalScoreFunction.py: local_score_BDeu"]}
{"id": "C97", "title": "The BIC score is score equivalent", "statement": "local_score_BIC / local_score_BIC_from_cov, summed over the nodes of a DAG with their parents, gives Markov equivalent DAGs the same score whenever the covariance matrix is positive definite; the local score does not depend on the order in which the parents are listed, the logarithm is always taken of a positive number, and one more parent never costs more than the penalty lambda*log(n).", "quantifier": "all positive definite covariance matrices of any size, sample sizes, penalties, pairs of equivalent DAGs and parent lists", "why_tests_cant": "it concerns every covariance matrix and every pair of equivalent DAGs; numerical tests check only a few matrices up to rounding", "anchors": ["causallearn/score/LocalScoreFunction.py: local_score_BIC, local_score_BIC_from_cov"]}
{"id": "C98", "title": "chisq and gsq compute the textbook statistic", "statement": "CIT(data,'chisq') and CIT(data,'gsq') return chi2.sf of the textbook Pearson / G-square statistic, summed over the strata of the conditioning set that occur in the data, with (values of X in the stratum - 1)*(values of Y in the stratum - 1) degrees of freedom each, and 1 when there are no degrees of freedom; the answer does not depend on which of the two table-filling procedures is chosen by the size threshold. The chi-square statistic is never negative and is zero exactly when the counts factorise in every stratum.", "quantifier": "all data sets with at least one sample, all variables and conditioning sets, all thresholds", "why_tests_cant": "the number of layouts (missing values, empty strata, cardinalities) is unbounded and the switch between procedures depends on the product of all cardinalities", "anchors": ["causallearn/utils/cit.py: Chisq_or_Gsq, chisq_or_gsq_test, _Fill2DCountTable, _Fill3DCountTableByBincount, _Fill3DCountTableByUnique, _CalculatePValue"]}
{"id": "C99", "title": "chisq and gsq do not depend on the order of arguments and samples", "statement": "The p-value of chisq / gsq is the same for (X, Y, S) and (Y, X, S), for every order of S (also with repetitions) and for every order of the samples, so that the cache, which sorts its keys, never returns a value the uncached test would not give.", "quantifier": "all data sets, argument orders and row permutations", "why_tests_cant": "ranges over all permutations of rows and arguments", "anchors": ["causallearn/utils/cit.py: Chisq_or_Gsq, chisq_or_gsq_test, _Fill2DCountTable, _Fill3DCountTableByBincount, _Fill3DCountTableByUnique, _CalculatePValue"]}
{"id": "C100", "title": "chisq and gsq do not depend on the coding of the values", "statement": "Replacing the values of each variable by other values through an injective recoding leaves every chisq / gsq p-value unchanged.", "quantifier": "all data sets and all injective recodings", "why_tests_cant": "ranges over all recodings", "anchors": ["causallearn/utils/cit.py: Chisq_or_Gsq, chisq_or_gsq_test, _Fill2DCountTable, _Fill3DCountTableByBincount, _Fill3DCountTableByUnique, _CalculatePValue"]}
{"id": "C101", "title": "IAMB returns the Markov blanket", "statement": "Given a conditional independence test whose answers are the d-separations of a DAG, iamb(test, d, target, alpha) terminates and returns exactly the target's parents, children and children's other parents, whatever p-values order the candidates.", "quantifier": "every DAG, every test agreeing with d-separation in it, every target", "why_tests_cant": "Each test fixes one graph and one order of p-values; the backward phase must be right for every order in which the forward phase admitted variables.", "anchors": ["causallearn/utils/MarkovNetwork/iamb.py:iamb"]}
{"id": "C102", "title": "IAMB terminates, is greedy and bounded for any test", "statement": "Whatever the test answers, iamb terminates with distinct variables other than the target, drawn from a list grown greedily by smallest p-value, outside of which every variable tested independent; the reported number of tests is exactly that of the loops and at most (d-1)(d+2)/2.", "quantifier": "every number of variables, target, level and every (even inconsistent) test function", "why_tests_cant": "Inconsistent tests on finite data are the normal case; termination and the cost bound must hold for all of them.", "anchors": ["causallearn/utils/MarkovNetwork/iamb.py:iamb"]}
{"id": "C103", "title": "The Markov network is symmetric, loop free, and the moral graph for a perfect test", "statement": "iamb_markov_network returns a symmetric 0/1 matrix with zero diagonal that joins two variables exactly when one is in the other's blanket; with a d-separation test it is the moral graph of the DAG.", "quantifier": "every test function; every DAG for the second part", "why_tests_cant": "Symmetry follows from how rows and columns are overwritten in turn for every sequence of blankets.", "anchors": ["causallearn/utils/MarkovNetwork/iamb.py:iamb_markov_network"]}
{"id": "C104", "title": "The Markov network follows the AND rule", "statement": "As its comment announces, iamb_markov_network joins i and j if and only if each is in the blanket found for the other.", "quantifier": "every test function", "why_tests_cant": "The rule only differs from the OR rule on inconsistent tests.", "anchors": ["causallearn/utils/MarkovNetwork/iamb.py:iamb_markov_network"]}
{"id": "C105", "title": "dag2pag returns the adjacencies of the ancestral graph", "statement": "dag2pag(dag, islatent, isselection) terminates, and two observed variables are adjacent in the result exactly when no set of observed variables, together with the selection variables, d-separates them in the DAG.", "quantifier": "every DAG, every choice of latent and selection variables, every order in which Python lists the observed ones", "why_tests_cant": "The adjacencies depend on every subset of the observed variables; a test fixes one DAG.", "anchors": ["causallearn/utils/DAG2PAG.py:dag2pag"]}
{"id": "C106", "title": "dag2pag orients exactly the unshielded colliders, and keeps them", "statement": "Before the orientation rules an edge has an arrowhead at k exactly when k is the middle of an unshielded triple and is an ancestor neither of its ends nor of a selection variable; all of these arrowheads are in the result.", "quantifier": "every DAG, latent and selection variables, order of the observed ones", "why_tests_cant": "The recorded set is a union of all separating sets of the smallest size; that it decides colliders correctly is a fact about all DAGs.", "anchors": ["causallearn/utils/DAG2PAG.py:dag2pag", "causallearn/utils/DAG2PAG.py:mod_endpoint"]}
{"id": "C107", "title": "dag2pag's result is closed under R1, R2, R6, R7, R9 and R8", "statement": "In the result no further application of FCI's R1, R2, R6, R7 or R9 is possible, nor of R8 to nodes a, c with a listed before c.", "quantifier": "every DAG, latent and selection variables, order of the observed ones", "why_tests_cant": "Closure must hold after the last pass of the loop for every graph.", "anchors": ["causallearn/utils/DAG2PAG.py:dag2pag"]}
{"id": "C108", "title": "dag2pag's result is sound and closed under R3 and R4", "statement": "The result of dag2pag is a PAG of the DAG: every arrowhead at k on an edge i - k means that k is no ancestor of i, and no rule of FCI, R3 included, applies any more.", "quantifier": "every DAG, latent and selection variables", "why_tests_cant": "The faults need five particular edges, or a discriminating path.", "anchors": ["causallearn/utils/DAG2PAG.py:dag2pag", "causallearn/search/ConstraintBased/FCI.py:isNoncollider", "causallearn/search/ConstraintBased/FCI.py:doDdpOrientation"]}
{"id": "C109", "title": "CD-NOD with a perfect test finds everything that can be known", "statement": "If the independence test answers by d-separation in a DAG over the variables and the index, and the index has no parent there, cdnod returns, in every mode, a graph with the adjacencies of that DAG in which an edge is directed exactly when every Markov equivalent DAG that keeps the index parentless directs it that way, and undirected otherwise.", "quantifier": "every number of variables, DAG with a parentless index, p-values with the right side of alpha, stable or not, every uc_rule and uc_priority cdnod accepts", "why_tests_cant": "Completeness of the orientation rules for the extra knowledge is a statement about all DAGs in all equivalence classes.", "anchors": ["causallearn/search/ConstraintBased/CDNOD.py:cdnod_alg", "causallearn/utils/PCUtils/UCSepset.py", "causallearn/utils/PCUtils/Meek.py:meek"]}
{"id": "C110", "title": "CD-NOD always returns, and the index is a cause", "statement": "Whatever the test answers and whatever the background knowledge says, cdnod returns without an exception; its adjacencies are those of the skeleton search; with priorities 2, 3, 4 or the default every edge at the index points away from it.", "quantifier": "every test, knowledge, number of variables, mode", "why_tests_cant": "The test is arbitrary: no finite set of data sets covers its answers.", "anchors": ["causallearn/search/ConstraintBased/CDNOD.py:cdnod_alg"]}
{"id": "C111", "title": "CD-NOD respects background knowledge between the variables", "statement": "Between two variables other than the index, cdnod's result has an arrowhead that the knowledge forbids only when the opposite direction is forbidden too, and a direction that the knowledge demands is there.", "quantifier": "every test, knowledge, number of variables, mode", "why_tests_cant": "Collider orientation and the rules run after the knowledge is applied, for every test.", "anchors": ["causallearn/search/ConstraintBased/CDNOD.py:cdnod_alg", "causallearn/utils/PCUtils/BackgroundKnowledgeOrientUtils.py:orient_by_background_knowledge"]}
{"id": "C112", "title": "The index is a cause in every variant", "statement": "In every variant and with every priority the edges at the index point away from it.", "quantifier": "every test and priority, and the variant for missing values", "why_tests_cant": "Needs two independent variables that both change with the index.", "anchors": ["causallearn/search/ConstraintBased/CDNOD.py:cdnod_alg", "causallearn/search/ConstraintBased/CDNOD.py:mvcdnod_alg"]}
{"id": "C113", "title": "CD-NOD respects background knowledge everywhere", "statement": "cdnod never returns an edge direction the knowledge forbids.", "quantifier": "every knowledge, including about the index and about pairs forbidden in both directions", "why_tests_cant": "The knowledge is arbitrary.", "anchors": ["causallearn/search/ConstraintBased/CDNOD.py:cdnod_alg"]}
{"id": "C114", "title": "LiNGAM's coefficient matrix is acyclic and follows the causal order", "statement": "Given a causal order, the adjacency matrix a LiNGAM model estimates has a non-zero coefficient of x_j in the equation of x_i only if j precedes i in the order; the graph of non-zero coefficients has no cycle; the row of a variable holds exactly the coefficients regressed on its predecessors that the prior knowledge does not exclude.", "quantifier": "every order without repetition, every result of the regressions, every knowledge", "why_tests_cant": "The regression results are arbitrary real data.", "anchors": ["causallearn/search/FCMBased/lingam/base.py:_BaseLiNGAM._estimate_adjacency_matrix"]}
{"id": "C115", "title": "DirectLiNGAM returns an order of all variables", "statement": "fit returns a causal order that lists every variable exactly once and an acyclic matrix along it; without prior knowledge it never raises, and each variable is chosen because no remaining one has a better independence score.", "quantifier": "every number of variables, every score (NaN included), every regression", "why_tests_cant": "The scores depend on the data.", "anchors": ["causallearn/search/FCMBased/lingam/direct_lingam.py:DirectLiNGAM.fit", "causallearn/search/FCMBased/lingam/direct_lingam.py:DirectLiNGAM._search_causal_order"]}
{"id": "C116", "title": "Prior knowledge fixes the order", "statement": "With prior knowledge applied in the strong way, the constructor raises exactly when a path is demanded in both directions; the first fit succeeds exactly when some numbering of the variables is compatible with the knowledge, and then its order respects every 'path from j to i' and every 'no path from j to i' whose opposite is not excluded as well, so that no path contradicts them; coefficients excluded by the knowledge are zero.", "quantifier": "every knowledge matrix, score and regression", "why_tests_cant": "Every knowledge matrix, consistent or not.", "anchors": ["causallearn/search/FCMBased/lingam/direct_lingam.py:DirectLiNGAM._extract_partial_orders", "causallearn/search/FCMBased/lingam/direct_lingam.py:DirectLiNGAM._search_candidate", "causallearn/search/FCMBased/lingam/direct_lingam.py:DirectLiNGAM.fit"]}
{"id": "C117", "title": "Soft prior knowledge", "statement": "With prior knowledge applied softly, an order that is returned still puts a variable after those said to have a path to it, coefficients excluded by the knowledge are zero, and fit succeeds whenever some strict partial order satisfies the knowledge.", "quantifier": "every knowledge matrix, score and regression", "why_tests_cant": "The candidate rule is a case analysis over all matrices and remaining sets.", "anchors": ["causallearn/search/FCMBased/lingam/direct_lingam.py:DirectLiNGAM._search_candidate"]}
{"id": "C118", "title": "Every fit of a model uses its prior knowledge", "statement": "Fitting the same DirectLiNGAM object again (as bootstrap does) respects the prior knowledge as the first fit did.", "quantifier": "every knowledge and every history of fits", "why_tests_cant": "A statement about histories of calls on one object.", "anchors": ["causallearn/search/FCMBased/lingam/direct_lingam.py:DirectLiNGAM.fit", "causallearn/search/FCMBased/lingam/bootstrap.py:BootstrapMixin.bootstrap"]}
{"id": "C119", "title": "Prior knowledge is a statement about paths", "statement": "A fitted model has no directed path where the knowledge says there is none, no coefficient where it excludes one, and a path where it demands one.", "quantifier": "every knowledge matrix", "why_tests_cant": "Needs pairs excluded in both directions.", "anchors": ["causallearn/search/FCMBased/lingam/direct_lingam.py:DirectLiNGAM._extract_partial_orders"]}
{"id": "C120", "title": "ICA-LiNGAM always finds an order", "statement": "The strict search finds an order exactly when the non-zero pattern of the matrix is acyclic, and returns a topological order of it; with two or more variables fit always returns an order of all variables, a topological order of what is left after the smallest entries are set to zero one by one, stopping at the first acyclic pattern with more than n(n+1)/2 zeroed.", "quantifier": "every matrix and every sorting of its positions, every number of variables", "why_tests_cant": "All matrices.", "anchors": ["causallearn/search/FCMBased/lingam/ica_lingam.py:ICALiNGAM._search_causal_order", "causallearn/search/FCMBased/lingam/ica_lingam.py:ICALiNGAM._estimate_causal_order"]}
{"id": "C121", "title": "ICA-LiNGAM's order depends on the data", "statement": "For any number of variables, ICA-LiNGAM recovers the order of an exactly triangular matrix.", "quantifier": "every number of variables, one and two included", "why_tests_cant": "Holds or fails for every data set at once.", "anchors": ["causallearn/search/FCMBased/lingam/ica_lingam.py:ICALiNGAM._estimate_causal_order"]}
{"id": "C122", "title": "make_prior_knowledge says what it is told", "statement": "Entry (j, i) is 0 when j is declared exogenous, i is declared a sink, or the absence of a path from i to j is declared and a path is not; 1 when a path from i to j is declared and neither holds; -1 otherwise and on the diagonal. A DirectLiNGAM model built from it orders declared paths, puts exogenous variables first, and gives no coefficient into exogenous variables or out of sinks.", "quantifier": "every list of exogenous, sink, path and no-path declarations", "why_tests_cant": "All combinations of overlapping declarations.", "anchors": ["causallearn/search/FCMBased/lingam/utils/__init__.py:make_prior_knowledge"]}
{"id": "C123", "title": "Sink and exogenous variables", "statement": "get_sink_variables and get_exo_variables return exactly the variables without an outgoing, respectively incoming, coefficient; a fitted model has at least one of each.", "quantifier": "every matrix and order", "why_tests_cant": "All matrices.", "anchors": ["causallearn/search/FCMBased/lingam/utils/__init__.py:get_sink_variables", "causallearn/search/FCMBased/lingam/utils/__init__.py:get_exo_variables"]}
{"id": "C124", "title": "find_all_paths finds all directed paths", "statement": "For a matrix whose coefficients above the threshold form an acyclic graph and two different variables, find_all_paths returns every directed path from the first to the second exactly once, each with the product of its coefficients; on any matrix, cyclic or not, it terminates (with a result or an exception).", "quantifier": "every matrix, threshold and pair of variables", "why_tests_cant": "All matrices of all sizes; termination.", "anchors": ["causallearn/search/FCMBased/lingam/utils/__init__.py:find_all_paths"]}
{"id": "C125", "title": "find_all_paths rejects cycles and answers trivial questions", "statement": "find_all_paths raises when a cycle is reachable, and returns an answer when both variables are the same.", "quantifier": "every matrix and pair of variables", "why_tests_cant": "Holds for every matrix or fails.", "anchors": ["causallearn/search/FCMBased/lingam/utils/__init__.py:find_all_paths"]}
{"id": "C126", "title": "Bootstrap counts are the numbers of samples", "statement": "get_causal_direction_counts lists each direction (with its sign, if asked) found in a sample exactly once with the number of samples that have it, most frequent first, and a bound keeps the most frequent ones; get_directed_acyclic_graph_counts does the same for graphs; get_probabilities is the number of samples with the coefficient over all samples; thresholds and bounds that are not positive are rejected.", "quantifier": "every list of samples, threshold, bound, and sorting routine", "why_tests_cant": "All sample lists.", "anchors": ["causallearn/search/FCMBased/lingam/bootstrap.py:BootstrapResult.get_causal_direction_counts", "causallearn/search/FCMBased/lingam/bootstrap.py:BootstrapResult.get_directed_acyclic_graph_counts", "causallearn/search/FCMBased/lingam/bootstrap.py:BootstrapResult.get_probabilities"]}
{"id": "C127", "title": "Bootstrap paths", "statement": "get_paths lists every directed path found in a sample once, with the number of samples that have it, most frequent first.", "quantifier": "every list of acyclic samples and pair of different variables", "why_tests_cant": "All sample lists.", "anchors": ["causallearn/search/FCMBased/lingam/bootstrap.py:BootstrapResult.get_paths"]}
{"id": "C128", "title": "get_paths respects min_causal_effect", "statement": "get_paths only reports paths along coefficients larger than min_causal_effect.", "quantifier": "every list of samples and threshold", "why_tests_cant": "All thresholds.", "anchors": ["causallearn/search/FCMBased/lingam/bootstrap.py:BootstrapResult.get_paths"]}
{"id": "C129", "title": "Interventions solve the structural equations", "statement": "An adjacency matrix given to CausalEffect is accepted exactly when it can be brought into strictly lower triangular form, and then the variables are ordered with causes first; the expectations computed for an intervention do(x_k = v) are the unique solution of the model's equations with the equation of x_k replaced by x_k = v.", "quantifier": "every matrix (coefficients zero or above the tolerance), every intervention and noise mean", "why_tests_cant": "All matrices and real coefficients.", "anchors": ["causallearn/search/FCMBased/lingam/causal_effect.py:CausalEffect._check_init_params", "causallearn/search/FCMBased/lingam/causal_effect.py:CausalEffect._get_propagated_effects"]}
{"id": "C130", "title": "The effect of an intervention is the sum over directed paths", "statement": "Changing the intervention value on x_k by d changes the expectation of x_b by d times the sum, over all directed paths from k to b, of the products of the coefficients.", "quantifier": "every acyclic matrix, pair of variables and intervention values", "why_tests_cant": "A statement about all paths of all graphs.", "anchors": ["causallearn/search/FCMBased/lingam/causal_effect.py:CausalEffect._get_propagated_effects"]}
{"id": "C131", "title": "Effects on a prediction", "statement": "Setting a variable to its mean leaves all expectations at their means; estimate_effects_on_prediction returns, for each variable, by how much the prediction changes when the variable moves up or down one standard deviation and all others move by its total effects; for a linear predictor both columns are the standard deviation times the total effect on the prediction.", "quantifier": "every acyclic matrix, means, standard deviations and predictor", "why_tests_cant": "All predictors.", "anchors": ["causallearn/search/FCMBased/lingam/causal_effect.py:CausalEffect.estimate_effects_on_prediction"]}
{"id": "C132", "title": "The optimal intervention attains the desired output", "statement": "When no row of the matrix has coefficients that cancel: whatever random choices the loop makes, when it ends, the returned quotient is the intervention value whose expected prediction is the desired one (and the only one, if the total effect on the prediction is not zero); the loop can end from every state.", "quantifier": "every acyclic matrix, linear predictor, desired output and sequence of random choices", "why_tests_cant": "Ranges over all schedules of random choices.", "anchors": ["causallearn/search/FCMBased/lingam/causal_effect.py:CausalEffect.estimate_optimal_intervention"]}
{"id": "C133", "title": "The optimal intervention works for all coefficients", "statement": "estimate_optimal_intervention attains the desired output for every acyclic matrix.", "quantifier": "every acyclic matrix", "why_tests_cant": "A corner case of the coefficients.", "anchors": ["causallearn/search/FCMBased/lingam/causal_effect.py:CausalEffect.estimate_optimal_intervention"]}
{"id": "C134", "title": "BottomUpParceLiNGAM's order covers every variable once", "statement": "With at least two variables, the causal order consists of an unordered block (never of size one) followed by single variables, and every variable occurs exactly once; without knowledge every ordered variable, except the first of a complete order, had a p-value of at least the threshold when regressed on exactly the variables before it.", "quantifier": "every outcome of the tests, threshold and number of variables", "why_tests_cant": "Ranges over all test outcomes.", "anchors": ["causallearn/search/FCMBased/lingam/bottom_up_parce_lingam.py:BottomUpParceLiNGAM.fit", "causallearn/search/FCMBased/lingam/bottom_up_parce_lingam.py:BottomUpParceLiNGAM._search_causal_order"]}
{"id": "C135", "title": "BottomUpParceLiNGAM's matrix has NaN exactly inside the unordered block and is acyclic elsewhere", "statement": "An entry is NaN exactly for two different variables of the block; rows of block variables are otherwise zero; a non-zero coefficient goes from a variable earlier in the order to a later one and is the one estimated by the regression on all earlier variables not excluded by knowledge; the non-zero coefficients form no cycle.", "quantifier": "every order, regression and knowledge", "why_tests_cant": "All inputs.", "anchors": ["causallearn/search/FCMBased/lingam/bottom_up_parce_lingam.py:BottomUpParceLiNGAM._estimate_adjacency_matrix"]}
{"id": "C136", "title": "BottomUpParceLiNGAM respects prior knowledge", "statement": "If knowledge says that a comes before b and a is ordered, b is ordered later than a; coefficients excluded by knowledge are not non-zero if the knowledge says anything about the order; variables on a cycle of contradictory knowledge, and everything that must come before them, stay in the unordered block.", "quantifier": "every prior knowledge matrix and test outcome", "why_tests_cant": "All knowledge matrices.", "anchors": ["causallearn/search/FCMBased/lingam/bottom_up_parce_lingam.py:BottomUpParceLiNGAM.__init__", "causallearn/search/FCMBased/lingam/bottom_up_parce_lingam.py:BottomUpParceLiNGAM._extract_partial_orders", "causallearn/search/FCMBased/lingam/bottom_up_parce_lingam.py:BottomUpParceLiNGAM._search_causal_order"]}
{"id": "C137", "title": "BottomUpParceLiNGAM handles one variable, refits and tests sinks with knowledge", "statement": "fit works with one variable, a second fit of the same object respects the knowledge, and with knowledge every ordered variable was tested against all variables before it.", "quantifier": "every object and input", "why_tests_cant": "Corner cases and histories.", "anchors": ["causallearn/search/FCMBased/lingam/bottom_up_parce_lingam.py:BottomUpParceLiNGAM.fit", "causallearn/search/FCMBased/lingam/bottom_up_parce_lingam.py:BottomUpParceLiNGAM._search_causal_order"]}
{"id": "C138", "title": "RCD's ancestor search ends and is antisymmetric", "statement": "For every outcome of the statistical tests fit terminates (within a bound depending on the number of variables and max_explanatory_num), and in ancestors_list_ no variable is its own ancestor and no two variables are each other's ancestor.", "quantifier": "every outcome of the tests, number of variables and max_explanatory_num", "why_tests_cant": "Termination of a restarting loop over all test outcomes.", "anchors": ["causallearn/search/FCMBased/lingam/rcd.py:RCD._extract_ancestors"]}
{"id": "C139", "title": "RCD's ancestors come from evidence", "statement": "Every reported ancestor relation was found because the variable was the only sink of a set of at most max_explanatory_num + 1 variables given ancestors already reported; if the tests never mislead, only true ancestors are reported; at the end no pair of variables has an undecided only sink.", "quantifier": "every outcome of the tests", "why_tests_cant": "Ranges over all test outcomes and all histories of the loop.", "anchors": ["causallearn/search/FCMBased/lingam/rcd.py:RCD._extract_ancestors", "causallearn/search/FCMBased/lingam/rcd.py:RCD._exists_ancestor_in_U"]}
{"id": "C140", "title": "RCD's matrix: NaN for confounded pairs, coefficients for parents", "statement": "adjacency_matrix_ has NaN in both directions exactly for pairs, neither a parent of the other, whose residuals on their parents are correlated; the coefficient of a parent is that of the regression on all parents; every other entry is 0; coefficients are never in both directions; the matrix of error p-values is symmetric and NaN exactly for variables touched by a NaN.", "quantifier": "every outcome of the tests and regressions", "why_tests_cant": "All inputs.", "anchors": ["causallearn/search/FCMBased/lingam/rcd.py:RCD._extract_parents", "causallearn/search/FCMBased/lingam/rcd.py:RCD._extract_vars_sharing_confounders", "causallearn/search/FCMBased/lingam/rcd.py:RCD._estimate_adjacency_matrix", "causallearn/search/FCMBased/lingam/rcd.py:RCD.get_error_independence_p_values"]}
{"id": "C141", "title": "RCD returns a complete acyclic ancestor relation", "statement": "ancestors_list_ is transitive, adjacency_matrix_ is acyclic, and no set of variables with an only sink stays undecided.", "quantifier": "every outcome of the tests", "why_tests_cant": "Interleaving of discoveries with the history pruning.", "anchors": ["causallearn/search/FCMBased/lingam/rcd.py:RCD._extract_ancestors"]}
{"id": "C142", "title": "CAM-UV terminates with antisymmetric parents", "statement": "For every outcome of the independence tests (and every order in which Python walks through a set) execute terminates; a parent is a different variable, is dependent on its child, and no two variables are each other's parent.", "quantifier": "every test outcome, set iteration order, number of variables and num_explanatory_vals", "why_tests_cant": "Termination of a restarting loop over all test outcomes.", "anchors": ["causallearn/search/FCMBased/lingam/CAMUV.py:execute", "causallearn/search/FCMBased/lingam/CAMUV.py:find_parents"]}
{"id": "C143", "title": "CAM-UV's parents come from evidence", "statement": "Every parent before pruning was found in a set of variables with no known relation in it, as the child with the best p-value above alpha, dependent without the regression; if the tests never mislead, only true parents are returned; no set yields anything more at the end (unless its best p-value is attained twice); pruning removes exactly the parents whose residual is independent of the residual of the child on its other parents.", "quantifier": "every test outcome", "why_tests_cant": "All test outcomes and histories.", "anchors": ["causallearn/search/FCMBased/lingam/CAMUV.py:find_parents", "causallearn/search/FCMBased/lingam/CAMUV.py:get_child", "causallearn/search/FCMBased/lingam/CAMUV.py:check_independence_withou_K"]}
{"id": "C144", "title": "CAM-UV's unobserved pairs and causal pairs", "statement": "The returned list contains every pair i < j exactly once, and exactly those pairs that are dependent, are not parent and child, and whose residuals on their parents are dependent; create_data_for_evaluation lists every (parent, child) pair exactly once.", "quantifier": "every test outcome", "why_tests_cant": "All inputs.", "anchors": ["causallearn/search/FCMBased/lingam/CAMUV.py:execute", "causallearn/search/FCMBased/lingam/CAMUV.py:create_data_for_evaluation"]}
{"id": "C145", "title": "CAM-UV's parents are acyclic", "statement": "The parents returned by execute form no directed cycle.", "quantifier": "every test outcome", "why_tests_cant": "Ranges over all test outcomes.", "anchors": ["causallearn/search/FCMBased/lingam/CAMUV.py:execute"]}
{"id": "C146", "title": "skeleton_correction only removes justified edges", "statement": "The missing-value correction of a skeleton terminates; it only removes edges (kept edges keep their marks); every removed edge was accepted as independent given a set of other variables adjacent to one of its ends in the input graph; every remaining edge is rejected as dependent given every set of final neighbours of either end.", "quantifier": "every verdict of the corrected test, stable or not, every input graph built by the API", "why_tests_cant": "All test outcomes and numbers of variables.", "anchors": ["causallearn/search/ConstraintBased/PC.py:skeleton_correction"]}
{"id": "C147", "title": "skeleton_correction records separating sets in the stable mode", "statement": "With stable=True every edge removed by the correction gets a separating set recorded under both orders of the pair, every set recorded was accepted by the test, sets known before are kept, and pairs that keep their edge get none.", "quantifier": "every test outcome", "why_tests_cant": "All test outcomes.", "anchors": ["causallearn/search/ConstraintBased/PC.py:skeleton_correction"]}
{"id": "C148", "title": "mvpc is correct for a correct test", "statement": "If the test-wise deletion test accepts independence only of d-separated variables (it may find spurious dependence) and the corrected test answers d-separation in a DAG, mvpc_alg returns the completed partially directed graph of the DAG, whatever the missingness pattern.", "quantifier": "every DAG, pair of tests, missingness pattern, stable mode, rule and priority", "why_tests_cant": "All DAGs and test behaviours.", "anchors": ["causallearn/search/ConstraintBased/PC.py:mvpc_alg", "causallearn/search/ConstraintBased/PC.py:skeleton_correction"]}
{"id": "C149", "title": "mvpc works in the unstable mode", "statement": "mvpc_alg with stable=False returns a graph under the same hypotheses.", "quantifier": "every DAG and pair of tests", "why_tests_cant": "Ranges over all DAGs.", "anchors": ["causallearn/search/ConstraintBased/PC.py:mvpc_alg", "causallearn/search/ConstraintBased/PC.py:skeleton_correction"]}
{"id": "C150", "title": "Parents of missingness indicators", "statement": "detect_parent terminates; a variable it leaves out was accepted as independent of the indicator given other variables; a variable it returns is rejected given every set of other returned variables; with a d-separation oracle and an indicator without effects it returns exactly the parents. The list of parents contains exactly the partly missing columns for which it finds something.", "quantifier": "every test outcome, missingness pattern and DAG", "why_tests_cant": "All test outcomes.", "anchors": ["causallearn/search/ConstraintBased/PC.py:detect_parent", "causallearn/search/ConstraintBased/PC.py:get_parent", "causallearn/search/ConstraintBased/PC.py:get_parent_missingness_pairs", "causallearn/search/ConstraintBased/PC.py:get_missingness_index"]}
{"id": "C151", "title": "Merging overlapping clusters", "statement": "merge_overlaping_cluster terminates and returns the connected components of the overlap relation: every element exactly once, two elements in one output cluster exactly if a chain of overlapping input clusters links them, no empty output cluster; array_split cuts a list into k consecutive pieces whose lengths differ by at most one, longer ones first.", "quantifier": "every list of clusters, every set iteration order, every list and k > 0", "why_tests_cant": "Graph search over arbitrary hypergraphs.", "anchors": ["causallearn/search/HiddenCausal/GIN/GIN.py:merge_overlaping_cluster", "causallearn/search/HiddenCausal/GIN/GIN.py:array_split", "causallearn/search/HiddenCausal/GIN/GIN.py:_get_all_elements"]}
{"id": "C152", "title": "GIN's clusters", "statement": "The first phase of GIN ends; clusters and isolated variables partition the observed variables; every cluster has at least two variables and is a class, under overlapping, of the accepted sets of one size among the variables then unclustered.", "quantifier": "every test outcome, Fisher combination, alpha and set iteration order", "why_tests_cant": "All test outcomes and numbers of variables.", "anchors": ["causallearn/search/HiddenCausal/GIN/GIN.py:GIN", "causallearn/search/HiddenCausal/GIN/GIN.py:merge_overlaping_cluster"]}
{"id": "C153", "title": "GIN's causal order", "statement": "The second phase ends; every cluster is in the causal order or in the rest exactly once; a cluster was ordered when its test against every cluster not yet ordered passed; every cluster of the rest fails against another one of the rest; a single cluster is never left over.", "quantifier": "every test outcome and list of distinct clusters", "why_tests_cant": "All test outcomes.", "anchors": ["causallearn/search/HiddenCausal/GIN/GIN.py:GIN", "causallearn/search/HiddenCausal/GIN/GIN.py:array_split"]}
{"id": "C154", "title": "GIN's graph", "statement": "The graph returned by GIN has exactly the observed variables and one latent variable per cluster as nodes; a latent variable points to exactly the observed variables of its cluster; ordered latent variables point to all later ones; unordered latent variables are joined by undirected edges; there is no other edge.", "quantifier": "every test outcome, number of variables and set iteration order", "why_tests_cant": "All inputs.", "anchors": ["causallearn/search/HiddenCausal/GIN/GIN.py:GIN"]}
{"id": "C155", "title": "GIN tests the remaining variables", "statement": "A set whose surrogate variable is independent of every remaining variable is (part of) a cluster.", "quantifier": "every test outcome", "why_tests_cant": "Ranges over all data.", "anchors": ["causallearn/search/HiddenCausal/GIN/GIN.py:GIN", "causallearn/search/HiddenCausal/GIN/GIN.py:cal_e_with_gin"]}
{"id": "C156", "title": "GIN_MI's graph", "statement": "With at least three variables and statistics below 1e9, GIN_MI returns a graph; its clusters partition the variables, have at least two each, and contain each variable together with a best partner; every root has the smallest statistic among the clusters left; latent variables point to exactly their cluster and to every later latent variable; there is no other edge.", "quantifier": "every statistic, number of variables >= 3 and set iteration order", "why_tests_cant": "All statistics.", "anchors": ["causallearn/search/HiddenCausal/GIN/GIN.py:GIN_MI", "causallearn/search/HiddenCausal/GIN/GIN.py:find_root", "causallearn/search/HiddenCausal/GIN/GIN.py:cal_dep_for_gin"]}
{"id": "C157", "title": "GIN_MI keeps every observed variable", "statement": "Every observed variable is a node of the graph returned by GIN_MI.", "quantifier": "every data set", "why_tests_cant": "Ranges over all data.", "anchors": ["causallearn/search/HiddenCausal/GIN/GIN.py:GIN_MI", "causallearn/search/HiddenCausal/GIN/GIN.py:cal_dep_for_gin"]}
{"id": "C158", "title": "VARLiNGAM's structural errors", "statement": "Without pruning, after fit the data at time t are the sum over tau = 0 .. lags of B_tau x(t - tau) plus the reported error; the number of matrices is lags + 1. With a criterion, the first best lag order 1 .. lags is used and fit fails exactly when no criterion value is a number.", "quantifier": "every series, lag order, number of variables, coefficients given or estimated", "why_tests_cant": "All series and dimensions.", "anchors": ["causallearn/search/FCMBased/lingam/var_lingam.py:VARLiNGAM.fit", "causallearn/search/FCMBased/lingam/var_lingam.py:VARLiNGAM._estimate_var_coefs", "causallearn/search/FCMBased/lingam/var_lingam.py:VARLiNGAM._calc_b", "causallearn/search/FCMBased/lingam/var_lingam.py:VARLiNGAM._calc_residuals"]}
{"id": "C159", "title": "VARLiNGAM's errors after pruning", "statement": "With pruning, after fit the data are what the reported matrices predict plus the reported error.", "quantifier": "every series", "why_tests_cant": "Ranges over all series.", "anchors": ["causallearn/search/FCMBased/lingam/var_lingam.py:VARLiNGAM.fit", "causallearn/search/FCMBased/lingam/var_lingam.py:VARLiNGAM._pruning"]}
{"id": "C160", "title": "VARLiNGAM's instantaneous matrix", "statement": "The instantaneous matrix of a fitted model, pruned or not, has non-zero coefficients only from variables earlier in causal_order_ to later ones, and causal_order_ lists every variable once.", "quantifier": "every series and option", "why_tests_cant": "All series.", "anchors": ["causallearn/search/FCMBased/lingam/var_lingam.py:VARLiNGAM.fit", "causallearn/search/FCMBased/lingam/var_lingam.py:VARLiNGAM._pruning"]}
{"id": "C161", "title": "VARLiNGAM's pruning", "statement": "Every coefficient of a pruned matrix is the coefficient which the regression of its target on its own regressor column got; the fitted values of these regressions are those of the matrices.", "quantifier": "every series, lag order and criterion", "why_tests_cant": "All series; index arithmetic in all dimensions.", "anchors": ["causallearn/search/FCMBased/lingam/var_lingam.py:VARLiNGAM._pruning"]}
{"id": "C162", "title": "VARLiNGAM fit is a function of the data", "statement": "Calling fit a second time gives the result a new object gives on the second data set.", "quantifier": "every pair of series", "why_tests_cant": "All histories of calls.", "anchors": ["causallearn/search/FCMBased/lingam/var_lingam.py:VARLiNGAM.fit"]}
{"id": "C163", "title": "VARLiNGAM's bootstrap re-estimates the lagged matrices", "statement": "Every bootstrap sample estimates its lagged matrices from the drawn series.", "quantifier": "every series and draw", "why_tests_cant": "All draws.", "anchors": ["causallearn/search/FCMBased/lingam/var_lingam.py:VARLiNGAM.bootstrap"]}
{"id": "C164", "title": "VARLiNGAM's table of effects", "statement": "In a bootstrap sample the column p*lag + j of the table of effects holds the effect of variable j at that lag.", "quantifier": "every order, lag order and number of variables", "why_tests_cant": "All dimensions.", "anchors": ["causallearn/search/FCMBased/lingam/var_lingam.py:VARLiNGAM.bootstrap"]}
{"id": "C165", "title": "VARLiNGAM's total effects", "statement": "estimate_total_effect regresses on the cause at its lag and on its parents, shifted by that lag, in columns that hold exactly the lagged values.", "quantifier": "every model, lag and row", "why_tests_cant": "All dimensions.", "anchors": ["causallearn/search/FCMBased/lingam/var_lingam.py:VARLiNGAM.estimate_total_effect", "causallearn/search/FCMBased/lingam/var_lingam.py:VARLiNGAM.estimate_total_effect2"]}
{"id": "C166", "title": "VARMALiNGAM's decomposition", "statement": "Without pruning, the data are sum psi_tau x(t - tau) + e(t) + sum omega_tau e(t - tau) with the errors e = (I - psi_0) residual.", "quantifier": "every series and order", "why_tests_cant": "All series and dimensions.", "anchors": ["causallearn/search/FCMBased/lingam/varma_lingam.py:VARMALiNGAM.fit", "causallearn/search/FCMBased/lingam/varma_lingam.py:VARMALiNGAM._calc_psi_and_omega", "causallearn/search/FCMBased/lingam/varma_lingam.py:VARMALiNGAM._calc_residuals"]}
{"id": "C167", "title": "VARMALiNGAM can be fitted again", "statement": "fit works with given coefficients and pruning, again on the same object, and in every bootstrap sample, and the second result does not depend on the first data set.", "quantifier": "every series, order and history of calls", "why_tests_cant": "All histories of calls.", "anchors": ["causallearn/search/FCMBased/lingam/varma_lingam.py:VARMALiNGAM.fit", "causallearn/search/FCMBased/lingam/varma_lingam.py:VARMALiNGAM.bootstrap", "causallearn/search/FCMBased/lingam/varma_lingam.py:VARMALiNGAM._pruning"]}
{"id": "C168", "title": "VARMALiNGAM's pruning", "statement": "The instantaneous matrix follows the causal order; every pruned coefficient of psi and omega is the coefficient of its own regressor, and the columns hold the lagged variables and errors.", "quantifier": "every series, order and causal order", "why_tests_cant": "Index arithmetic in all dimensions.", "anchors": ["causallearn/search/FCMBased/lingam/varma_lingam.py:VARMALiNGAM._pruning", "causallearn/search/FCMBased/lingam/varma_lingam.py:VARMALiNGAM.fit"]}
{"id": "C169", "title": "VARMALiNGAM's total effects", "statement": "estimate_total_effect at a lag regresses on the cause at this lag and its parents shifted by it.", "quantifier": "every model and lag", "why_tests_cant": "All dimensions.", "anchors": ["causallearn/search/FCMBased/lingam/varma_lingam.py:VARMALiNGAM.estimate_total_effect"]}
{"id": "C170", "title": "LongitudinalLiNGAM's errors", "statement": "fit succeeds exactly for at least two time points and at most T + 1 lags; at a time point with enough past the data are what the matrices predict plus the reported errors; instantaneous matrices follow the causal order of their time point.", "quantifier": "every panel, number of lags, time points and variables", "why_tests_cant": "All panels and dimensions.", "anchors": ["causallearn/search/FCMBased/lingam/longitudinal_lingam.py:LongitudinalLiNGAM.fit", "causallearn/search/FCMBased/lingam/longitudinal_lingam.py:LongitudinalLiNGAM._compute_residuals", "causallearn/search/FCMBased/lingam/longitudinal_lingam.py:LongitudinalLiNGAM._estimate_instantaneous_order"]}
{"id": "C171", "title": "LongitudinalLiNGAM uses only the past", "statement": "The regression at a time point uses only earlier time points, and the reported errors are those of the reported matrices at every time point.", "quantifier": "every panel with more lags than available time points", "why_tests_cant": "All panels.", "anchors": ["causallearn/search/FCMBased/lingam/longitudinal_lingam.py:LongitudinalLiNGAM._compute_residuals"]}
{"id": "C172", "title": "LongitudinalLiNGAM's missing matrices", "statement": "adjacency_matrices_[t, tau] is NaN exactly when the data it needs are not available.", "quantifier": "every panel, time point and lag", "why_tests_cant": "All dimensions.", "anchors": ["causallearn/search/FCMBased/lingam/longitudinal_lingam.py:LongitudinalLiNGAM.fit"]}
{"id": "C173", "title": "LongitudinalLiNGAM's bootstrap effects", "statement": "In a bootstrap sample, entry (to_t * p + to, from_t * p + from) of the table of effects holds the effect estimated on the drawn rows where the cause comes first in time, or in the order of the same time point; the rest is zero.", "quantifier": "every panel, draw and order", "why_tests_cant": "All dimensions and draws.", "anchors": ["causallearn/search/FCMBased/lingam/longitudinal_lingam.py:LongitudinalLiNGAM.bootstrap", "causallearn/search/FCMBased/lingam/longitudinal_lingam.py:LongitudinalLiNGAM.estimate_total_effect"]}
{"id": "C174", "title": "MultiGroupDirectLiNGAM's common order", "statement": "fit returns one order of all variables and one matrix per data set; all arrows of all matrices go forward in it, so that the graphs together have no directed cycle. With strong prior knowledge, fit on a new object succeeds exactly for at least two data sets of one shape and knowledge compatible with some order; the order and all matrices respect it.", "quantifier": "every list of data sets and prior knowledge", "why_tests_cant": "All data and knowledge.", "anchors": ["causallearn/search/FCMBased/lingam/multi_group_direct_lingam.py:MultiGroupDirectLiNGAM.fit", "causallearn/search/FCMBased/lingam/multi_group_direct_lingam.py:MultiGroupDirectLiNGAM._check_X_list", "causallearn/search/FCMBased/lingam/multi_group_direct_lingam.py:MultiGroupDirectLiNGAM._search_causal_order"]}
{"id": "C175", "title": "The data sets of MultiGroupDirectLiNGAM are exchangeable", "statement": "Permuting the data sets permutes the matrices and keeps the order; copies of one data set give what DirectLiNGAM gives on it; data sets of different sizes are accepted.", "quantifier": "every list of data sets", "why_tests_cant": "All data.", "anchors": ["causallearn/search/FCMBased/lingam/multi_group_direct_lingam.py:MultiGroupDirectLiNGAM.fit", "causallearn/search/FCMBased/lingam/multi_group_direct_lingam.py:MultiGroupDirectLiNGAM._search_causal_order", "causallearn/search/FCMBased/lingam/multi_group_direct_lingam.py:MultiGroupDirectLiNGAM._check_X_list"]}
{"id": "C176", "title": "MultiGroupDirectLiNGAM's bootstrap", "statement": "Every sample contributes for every data set an acyclic matrix along one order per sample, and the effects estimated from it on the resampled data set exactly where the cause comes first; every sample respects the prior knowledge.", "quantifier": "every sequence of samples", "why_tests_cant": "All draws.", "anchors": ["causallearn/search/FCMBased/lingam/multi_group_direct_lingam.py:MultiGroupDirectLiNGAM.bootstrap", "causallearn/search/FCMBased/lingam/multi_group_direct_lingam.py:MultiGroupDirectLiNGAM.estimate_total_effect"]}
{"id": "C177", "title": "get_sepset on DAGs", "statement": "On a DAG, get_sepset ends; it returns None exactly when the two nodes are the same or adjacent; otherwise it returns distinct proper ancestors of the two nodes which d-separate them. Swapping the nodes does not change whether it succeeds.", "quantifier": "every DAG, pair of nodes and order of visits", "why_tests_cant": "All DAGs; needs termination of a search over paths.", "anchors": ["causallearn/utils/GraphUtils.py:GraphUtils.get_sepset", "causallearn/utils/GraphUtils.py:GraphUtils.get_sepset_visit", "causallearn/utils/GraphUtils.py:GraphUtils.sepset_path_found", "causallearn/utils/GraphUtils.py:GraphUtils.get_pass_nodes", "causallearn/utils/GraphUtils.py:GraphUtils.node_reachable", "causallearn/graph/GeneralGraph.py:GeneralGraph.get_sepset"]}
{"id": "C178", "title": "get_sepset and latent nodes; Dag.get_sepset", "statement": "Latent nodes are never in the answer of get_sepset, and the method works on a Dag object too.", "quantifier": "every DAG with latent nodes", "why_tests_cant": "All graphs and node types.", "anchors": ["causallearn/utils/GraphUtils.py:GraphUtils.sepset_path_found", "causallearn/graph/Dag.py:Dag.get_sepset"]}
{"id": "C179", "title": "Dag.subgraph", "statement": "subgraph of a Dag has the given nodes and exactly the edges between them.", "quantifier": "every DAG and list of its nodes", "why_tests_cant": "All graphs and node subsets.", "anchors": ["causallearn/graph/Dag.py:Dag.subgraph"]}
{"id": "C180", "title": "Dag.dag2pag", "statement": "dag2pag returns the partial ancestral graph of the DAG over the observed nodes: it does not fail, it keeps two nodes adjacent exactly when no observed set separates them, and marks that are not determined are circles.", "quantifier": "every DAG and list of observed nodes", "why_tests_cant": "All DAGs and sets of latent nodes.", "anchors": ["causallearn/graph/Dag.py:Dag.dag2pag"]}
{"id": "C181", "title": "Granger test on two series", "statement": "granger_test_2d puts the p-value of 'c does not cause r with lags up to i' at (r, c + 2 i) and reports the influence exactly when that p-value is below the significance level.", "quantifier": "every pair of series, lag bound and level", "why_tests_cant": "All data and p-values, including those near the level.", "anchors": ["causallearn/search/Granger/Granger.py:Granger.granger_test_2d"]}
{"id": "C182", "title": "Granger lasso design", "statement": "granger_lasso regresses every variable at the times from maxlag on, on all variables at the maxlag times before; coefficient (k-1)*dim+j of row i is that of variable j, k steps before.", "quantifier": "every series, dimension and positive lag bound", "why_tests_cant": "All lengths and lags.", "anchors": ["causallearn/search/Granger/Granger.py:Granger.granger_lasso"]}
{"id": "C183", "title": "CALM: graph and weights", "statement": "calm reports an arc exactly for the pairs of the moral graph whose probability is at least one half (if both directions are, one of them), so within the moral graph, and the weight matrix agrees with the graph.", "quantifier": "every data set, moral graph and course of the training", "why_tests_cant": "The training is arbitrary; all dimensions.", "anchors": ["causallearn/search/ScoreBased/CALM.py:calm", "causallearn/search/ScoreBased/CALM.py:CalmModel.get_params"]}
{"id": "C184", "title": "CALM: acyclicity", "statement": "The constraint of a nonnegative matrix is zero exactly if it has no cycle; training stops when it is within the tolerance; the returned graph is a DAG.", "quantifier": "every matrix; every course of the training and dimension", "why_tests_cant": "Acyclicity for all matrices of all dimensions.", "anchors": ["causallearn/search/ScoreBased/CALM.py:CalmModel.compute_h", "causallearn/search/ScoreBased/CALM.py:calm", "causallearn/utils/CALMUtils.py:matrix_poly"]}
{"id": "C185", "title": "Kernel matrices and their centering", "statement": "Kernel matrices are symmetric; center_kernel_matrix returns H K H with the centering matrix H = I - 1/n: symmetric, with rows summing to zero.", "quantifier": "every data set, kernel, width and symmetric matrix", "why_tests_cant": "All sizes and real entries.", "anchors": ["causallearn/utils/KCI/Kernel.py:Kernel.center_kernel_matrix", "causallearn/utils/KCI/GaussianKernel.py:GaussianKernel", "causallearn/utils/KCI/LinearKernel.py:LinearKernel", "causallearn/utils/KCI/PolynomialKernel.py:PolynomialKernel"]}
{"id": "C186", "title": "Unconditional kernel test", "statement": "KCI_UInd is symmetric in the two variables, does not depend on the order of the samples or the units of the columns, and its p-value is between 0 and 1.", "quantifier": "every two data sets, kernels and widths; every reordering and rescaling", "why_tests_cant": "All data, orders and units.", "anchors": ["causallearn/utils/KCI/KCI.py:KCI_UInd"]}
{"id": "C187", "title": "Conditional kernel test", "statement": "KCI_CInd does not depend on the order of the samples or the units of the columns, and is symmetric in x and y.", "quantifier": "every three data sets, kernels and widths; every reordering and rescaling", "why_tests_cant": "All data, orders and units.", "anchors": ["causallearn/utils/KCI/KCI.py:KCI_CInd"]}
{"id": "C188", "title": "ANM", "statement": "cause_or_effect returns the p-values of both directions: exchanging the variables exchanges them, they are between 0 and 1, do not depend on the scale of the residuals, and an exact functional relation is accepted.", "quantifier": "every two samples and regression method", "why_tests_cant": "All data and regressions.", "anchors": ["causallearn/search/FCMBased/ANM/ANM.py:ANM.cause_or_effect"]}
{"id": "C189", "title": "PNL", "statement": "cause_or_effect tests the independence of the estimated noise from the cause: exchanging the variables exchanges the p-values, and dependent noise is rejected.", "quantifier": "every two samples and training procedure", "why_tests_cant": "All data and trainings.", "anchors": ["causallearn/search/FCMBased/PNL/PNL.py:PNL.cause_or_effect"]}
{"id": "C190", "title": "Fisher-z computes the partial correlation", "statement": "The p-value of FisherZ is Fisher's two-sided p-value of the correlation between the least-squares residuals of X and Y on S; it is in [0, 1], 1 exactly if that correlation is 0 or there are |S| + 3 samples, and decreases with its size. The call raises exactly if there are fewer than |S| + 3 samples or the variables are collinear, and is NaN exactly if one is constant.", "quantifier": "every data set, X, Y and S", "why_tests_cant": "All data and conditioning sets; the residuals are characterised for every data set.", "anchors": ["causallearn/utils/cit.py:FisherZ.__call__"]}
{"id": "C191", "title": "Fisher-z: order and units do not matter", "statement": "The result of FisherZ does not depend on the order of X and Y, the order or repetition of the conditioning variables, the order of the samples, or the units (shift and scale) of the columns.", "quantifier": "every data set, X, Y, S, reordering and rescaling", "why_tests_cant": "All data and permutations.", "anchors": ["causallearn/utils/cit.py:FisherZ.__call__", "causallearn/utils/cit.py:CIT_Base.get_formatted_XYZ_and_cachekey"]}
{"id": "C192", "title": "Test-wise deletion", "statement": "MV_FisherZ is FisherZ on the table of the rows without missing value in X, Y and S; other values do not matter; without missing values it is FisherZ.", "quantifier": "every data set with missing values, X, Y and S", "why_tests_cant": "All patterns of missing values.", "anchors": ["causallearn/utils/cit.py:MV_FisherZ.__call__", "causallearn/utils/PCUtils/Helper.py:get_index_complete_rows", "causallearn/utils/PCUtils/Helper.py:test_wise_deletion"]}
{"id": "C193", "title": "Missingness correction", "statement": "MC_FisherZ corrects exactly if a common neighbour of X and Y is a parent of the missingness of a tested variable and some variable of the closure W of those parents is not tested; then it is FisherZ on a virtual sample of full effective size, whose rows are the complete rows with the predictors W moved to those of a shuffled complete row; otherwise it is MV_FisherZ. The closure loop ends.", "quantifier": "every data set with missing values, skeleton, parents of missingness, X, Y, S and shuffle", "why_tests_cant": "All missingness graphs, including cyclic ones.", "anchors": ["causallearn/utils/cit.py:MC_FisherZ.__call__", "causallearn/utils/PCUtils/Helper.py:cond_perm_c", "causallearn/utils/PCUtils/Helper.py:get_prt_mw", "causallearn/utils/PCUtils/Helper.py:get_prt_mvars", "causallearn/utils/PCUtils/Helper.py:gen_vir_data", "causallearn/utils/PCUtils/Helper.py:get_predictor_ws"]}
{"id": "C194", "title": "HSIC kernel matrices and their centering", "statement": "The Gaussian kernel matrix is symmetric with entries in (0, 1], equal to 1 exactly for equal samples; the centered matrix computed from row, column and total sums is H K H (also the one of hsic2), and all its rows and columns add up to 0.", "quantifier": "every data set, number of columns, width and matrix", "why_tests_cant": "All data and sizes.", "anchors": ["causallearn/search/FCMBased/lingam/hsic.py:get_gram_matrix", "causallearn/search/FCMBased/lingam/hsic.py:_rbf_dot_XX", "causallearn/search/FCMBased/lingam/hsic2.py:get_K"]}
{"id": "C195", "title": "The HSIC statistic", "statement": "The HSIC statistic is never negative, symmetric in the two variables, its square at most the product of the statistics of each variable with itself, and that of a variable with itself is 0 only if all samples are equal.", "quantifier": "every pair of data sets and widths", "why_tests_cant": "Needs the positive definiteness of the Gaussian kernel for all data.", "anchors": ["causallearn/search/FCMBased/lingam/hsic.py:hsic_teststat", "causallearn/search/FCMBased/lingam/hsic.py:hsic_test_gamma"]}
{"id": "C196", "title": "HSIC test: sample order and units", "statement": "hsic_test_gamma with the median width gives the same statistic and p-value after any shift and rescaling of a variable, and for every order of the samples - the latter only with at most 100 samples, because the width is taken from the first 100.", "quantifier": "every data set, reordering and rescaling", "why_tests_cant": "All data and permutations.", "anchors": ["causallearn/search/FCMBased/lingam/hsic.py:hsic_test_gamma", "causallearn/search/FCMBased/lingam/hsic.py:get_kernel_width"]}
{"id": "C197", "title": "HSIC test: when the p-value is a number", "statement": "The median width is NaN exactly if the first 100 samples are equal, and between the extreme distances over sqrt 2 otherwise; with fewer than 4 samples the test raises an exception, with 4 or 5 the p-value is NaN; with 6 or more it is 1 minus the distribution function of a gamma distribution with positive parameters that has the mean and the variance estimated under independence, unless all off-diagonal products of the centered matrices are 0; it is in [0, 1].", "quantifier": "every data set and bandwidth method", "why_tests_cant": "All data and sample sizes.", "anchors": ["causallearn/search/FCMBased/lingam/hsic.py:hsic_test_gamma", "causallearn/search/FCMBased/lingam/hsic.py:get_kernel_width"]}
{"id": "C198", "title": "The two HSIC implementations agree", "statement": "hsic2.hsic_gam (used by CAM-UV) returns the statistic and the p-value of hsic_test_gamma for the same bandwidth (median: up to 100 samples); kernels given by the caller change nothing; its decision agrees with its p-value and with its statistic minus threshold; a constant variable or fewer than 6 samples gives NaN, decided as dependent.", "quantifier": "every data set, mode, width and kernel", "why_tests_cant": "All data and parameter combinations.", "anchors": ["causallearn/search/FCMBased/lingam/hsic2.py:hsic_gam", "causallearn/search/FCMBased/lingam/hsic2.py:get_width", "causallearn/search/FCMBased/lingam/hsic.py:hsic_test_gamma", "causallearn/search/FCMBased/lingam/CAMUV.py:hsic_gam"]}
{"id": "C199", "title": "RCD's regression by HSIC", "statement": "The function minimised by the MLHSICR regression of RCD is the sum of the HSIC statistics of the residual with each regressor, and never negative; it should depend on the data only through residual and regressors, not on the sign in which a regressor is measured.", "quantifier": "every data set, set of regressors and coefficient vector", "why_tests_cant": "All coefficients; a counterexample for the sign.", "anchors": ["causallearn/search/FCMBased/lingam/rcd.py:_get_resid_and_coef_by_MLHSICR", "causallearn/search/FCMBased/lingam/hsic.py:hsic_teststat"]}
{"id": "C200", "title": "The kernel matrices of the cross-validated score are centered", "statement": "The kernel matrices from which local_score_cv_general computes the score are centered: their rows add up to 0.", "quantifier": "every data set and number of samples", "why_tests_cant": "All data; the deviation is computed exactly.", "anchors": ["causallearn/score/LocalScoreFunction.py:local_score_cv_general", "causallearn/utils/ScoreUtils.py:kernel"]}
{"id": "C201", "title": "Cross-validation folds", "statement": "The test sets of the folds partition the samples in their order, each training set is the complement of its test set, the last fold takes the remainder, and the score fails for want of training samples only without parents and with at most one fold or more folds than samples.", "quantifier": "every number of samples and folds", "why_tests_cant": "All sizes.", "anchors": ["causallearn/score/LocalScoreFunction.py:local_score_cv_general"]}
{"id": "C202", "title": "Meaning of the cross-validated score", "statement": "With parents the score is the score without parents of the residuals of the kernel ridge regression on the parents; all matrices that are inverted are positive definite, so the score is a number for every data set without constant columns; the trace term is a Mahalanobis distance in feature space, and the score of one fold is a Gaussian negative log-likelihood.", "quantifier": "every data set, number of folds, ridge parameter and parents", "why_tests_cant": "Needs matrix identities (Woodbury) for all sizes.", "anchors": ["causallearn/score/LocalScoreFunction.py:local_score_cv_general"]}
{"id": "C203", "title": "What the cross-validated score depends on", "statement": "The score does not depend on units and origin of the variables, on the other variables or on the order of the parents; a constant column gives no number.", "quantifier": "every data set, affine change, order of parents", "why_tests_cant": "All data.", "anchors": ["causallearn/score/LocalScoreFunction.py:local_score_cv_general", "causallearn/utils/ScoreUtils.py:kernel"]}
{"id": "C204", "title": "Marginal and multi-dimensional kernel scores return a score", "statement": "The marginal likelihood scores and the scores for multi-dimensional variables return a number for any number of parents and any dimension.", "quantifier": "every number of samples, parents, columns and folds", "why_tests_cant": "All shapes.", "anchors": ["causallearn/score/LocalScoreFunction.py:local_score_marginal_general", "causallearn/score/LocalScoreFunction.py:local_score_marginal_multi", "causallearn/score/LocalScoreFunction.py:local_score_cv_multi", "causallearn/utils/ScoreUtils.py:cov_seard", "causallearn/utils/ScoreUtils.py:cov_sum"]}
{"id": "C205", "title": "Gaussian process likelihood and its gradient", "statement": "gpr_multi_new computes alpha = K^-1 y and the negative log-likelihood, and its gradient is the gradient of that value.", "quantifier": "every data set and covariance factor, every hyperparameter vector", "why_tests_cant": "A statement about derivatives.", "anchors": ["causallearn/utils/ScoreUtils.py:gpr_multi_new", "causallearn/utils/ScoreUtils.py:solve_chol", "causallearn/utils/ScoreUtils.py:cov_noise"]}
{"id": "C206", "title": "The minimiser descends", "statement": "minimize returns a point with its value and gradient, the value not above the starting value, after at most the given number of evaluations, and never reads an unset variable.", "quantifier": "every objective function, starting point and bound", "why_tests_cant": "All functions and step sequences.", "anchors": ["causallearn/utils/ScoreUtils.py:minimize"]}
{"id": "C207", "title": "The marginal score fits its hyperparameters", "statement": "local_score_marginal_general with at most one parent fits length scale, signal and noise to the data.", "quantifier": "every data set and starting point", "why_tests_cant": "All data and iterates.", "anchors": ["causallearn/score/LocalScoreFunction.py:local_score_marginal_general", "causallearn/utils/ScoreUtils.py:minimize", "causallearn/utils/ScoreUtils.py:gpr_multi_new"]}
{"id": "C208", "title": "GraphUtils.find_unshielded_triples finds the unshielded triples", "statement": "For every DAG, find_unshielded_triples lists the triples i - j - k with i and k not adjacent.", "quantifier": "every DAG", "why_tests_cant": "All graphs; a test on one graph cannot show that nothing is ever found.", "anchors": ["causallearn/utils/GraphUtils.py:find_unshielded_triples"]}
{"id": "C209", "title": "GraphUtils.find_triangles and find_kites", "statement": "On a graph without parallel edges, whatever its marks, find_triangles lists every ordered triple of pairwise adjacent nodes exactly once, and find_kites every kite (i, j, k, l) with j before k, exactly once.", "quantifier": "every graph without parallel edges", "why_tests_cant": "All graphs and marks.", "anchors": ["causallearn/utils/GraphUtils.py:find_triangles", "causallearn/utils/GraphUtils.py:find_kites"]}
{"id": "C210", "title": "dag2pattern returns the completed pattern", "statement": "For every adjacency matrix of a DAG, dag2pattern terminates and returns the matrix of the completed partially directed graph: same adjacencies, and an edge is directed exactly when every Markov equivalent DAG directs it so.", "quantifier": "every DAG", "why_tests_cant": "Quantifies over all DAGs and, for each, all equivalent DAGs.", "anchors": ["causallearn/utils/PCUtils/Helper.py:dag2pattern", "causallearn/utils/PCUtils/Helper.py:find_uc"]}
{"id": "C211", "title": "Finders on adjacency matrices", "statement": "find_undirected, find_fully_directed, find_bi_directed, find_adj, find_unshielded_triples, find_triangles, find_kites and find_uc list exactly what their names say, once; neighbors and degree_graph are the neighbours and the largest number of them; the conditioning sets of x and y are the sets of neighbours of x and those of y, each once.", "quantifier": "every adjacency matrix and nodes", "why_tests_cant": "All matrices.", "anchors": ["causallearn/utils/PCUtils/Helper.py:find_adj", "causallearn/utils/PCUtils/Helper.py:find_unshielded_triples", "causallearn/utils/PCUtils/Helper.py:find_triangles", "causallearn/utils/PCUtils/Helper.py:find_kites", "causallearn/utils/PCUtils/Helper.py:find_uc", "causallearn/utils/PCUtils/Helper.py:neighbors", "causallearn/utils/PCUtils/Helper.py:degree_graph", "causallearn/utils/PCUtils/Helper.py:find_all_conditioning_sets"]}
{"id": "C212", "title": "TETRAD files", "statement": "tetrad2adjmat of a file returns the matrix its lines describe, and raises ValueError exactly when a line joins a node to itself or two lines disagree; adjmat2tetrad followed by tetrad2adjmat gives the matrix back.", "quantifier": "every adjacency matrix, every list of edge lines", "why_tests_cant": "All files.", "anchors": ["causallearn/utils/PCUtils/Helper.py:adjmat2tetrad", "causallearn/utils/PCUtils/Helper.py:tetrad2adjmat"]}
{"id": "C213", "title": "networkx graphs and column order", "statement": "adjmat2digraph gives each edge arcs of its kind's colour and no arc two colours; is_dsep answers d-separation queries about the graph adjmat2digraph returns; rearrange_columns moves each entry to the place of its two variables.", "quantifier": "every adjacency matrix, query and column order", "why_tests_cant": "All matrices and permutations.", "anchors": ["causallearn/utils/PCUtils/Helper.py:adjmat2digraph", "causallearn/utils/PCUtils/Helper.py:is_dsep", "causallearn/utils/PCUtils/Helper.py:rearrange_columns"]}
{"id": "C214", "title": "Bootstrap loop", "statement": "bootstrap returns one matrix and one table of effects per draw; the effect of j on i is estimated when j precedes i in the order fitted to the draw and is zero otherwise; effects are estimated on the resampled data.", "quantifier": "every fit function, estimator, data set and sequence of draws", "why_tests_cant": "All draws and estimators, not a seed.", "anchors": ["causallearn/search/FCMBased/lingam/bootstrap.py:BootstrapMixin.bootstrap", "causallearn/search/FCMBased/lingam/multi_group_direct_lingam.py:MultiGroupDirectLiNGAM.bootstrap"]}
{"id": "C215", "title": "get_total_causal_effects", "statement": "Each pair with an effect above the threshold in some sample is listed once, most probable first, with the fraction of samples above the threshold and the median of those effects; thresholds that are not positive are rejected.", "quantifier": "every list of effect matrices, threshold and sorting order of ties", "why_tests_cant": "All samples, thresholds and unstable sorts.", "anchors": ["causallearn/search/FCMBased/lingam/bootstrap.py:BootstrapResult.get_total_causal_effects", "causallearn/search/FCMBased/lingam/bootstrap.py:LongitudinalBootstrapResult.get_total_causal_effects"]}
{"id": "C216", "title": "Effects of get_paths", "statement": "The effect get_paths gives for a path is the median, over the samples that have the path, of the product of the coefficients along it.", "quantifier": "every list of acyclic samples and pair of variables", "why_tests_cant": "All samples.", "anchors": ["causallearn/search/FCMBased/lingam/bootstrap.py:BootstrapResult.get_paths"]}
{"id": "C217", "title": "Longitudinal direction counts", "statement": "For each time point get_causal_direction_counts lists each direction found once, most frequent first, with the number of samples that have it, the column lag * p + j standing for variable j lag steps earlier.", "quantifier": "every list of samples, bounds, thresholds and options", "why_tests_cant": "All samples.", "anchors": ["causallearn/search/FCMBased/lingam/bootstrap.py:LongitudinalBootstrapResult.get_causal_direction_counts"]}
{"id": "C218", "title": "Bootstrap probabilities for time series", "statement": "get_probabilities gives one block per lag, whose entry (i, j) is the fraction of the samples with an arrow to i from j that many steps earlier; the longitudinal version gives it for each time point.", "quantifier": "every list of samples, number of lags and threshold", "why_tests_cant": "All samples.", "anchors": ["causallearn/search/FCMBased/lingam/bootstrap.py:BootstrapResult.get_probabilities", "causallearn/search/FCMBased/lingam/bootstrap.py:LongitudinalBootstrapResult.get_probabilities"]}
{"id": "C219", "title": "RCIT/RIT: units and sample order", "statement": "Rescaling and shifting columns by positive factors leaves the p-value unchanged for the same random draws; reversing a column is the same as reversing the sign of its random coefficients; with at most 500 samples reordering the samples changes nothing.", "quantifier": "every data set, draws, approximation of the null distribution and permutation of at most 500 samples", "why_tests_cant": "All data and draws.", "anchors": ["causallearn/utils/RCIT/RCIT.py:RCIT.compute_pvalue", "causallearn/utils/RCIT/RCIT.py:RIT.compute_pvalue", "causallearn/utils/RCIT/RCIT.py:RCIT.random_fourier_features"]}
{"id": "C220", "title": "RCIT: residuals", "statement": "The residuals of RCIT are those of a ridge regression on the features of z: their covariance with a feature of z is 1e-10 times its coefficient, and the covariance of the two residuals is the partial covariance up to the ridge term.", "quantifier": "every data set and number of features", "why_tests_cant": "All data.", "anchors": ["causallearn/utils/RCIT/RCIT.py:RCIT.compute_pvalue"]}
{"id": "C221", "title": "RCIT/RIT: p-values", "statement": "The p-value is between 0 and 1, the statistic is zero exactly when the features are uncorrelated, the requested approximation is the one used, and a permutation p-value is never zero.", "quantifier": "every data set, draws and approximation", "why_tests_cant": "All data and draws.", "anchors": ["causallearn/utils/RCIT/RCIT.py:RCIT.compute_pvalue", "causallearn/utils/RCIT/RCIT.py:RIT.compute_pvalue"]}
{"id": "C222", "title": "KCI conditional test: gamma approximation", "statement": "The gamma approximation of the conditional test uses the mean and variance of the weighted sum of chi-square variables given by the Hadamard product of the two residual matrices, whichever of the two products of eigenvectors is formed; the p-value does not depend on the order of the samples and is between 0 and 1.", "quantifier": "every data set, kernels and eigenvectors returned by eigh", "why_tests_cant": "All data and eigenvectors.", "anchors": ["causallearn/utils/KCI/KCI.py:KCI_CInd.compute_pvalue", "causallearn/utils/KCI/KCI.py:KCI_CInd.get_uuprod", "causallearn/utils/KCI/KCI.py:KCI_CInd.get_kappa"]}
{"id": "C223", "title": "KCI: simulated null distribution", "statement": "The weights of the simulated null distribution have the mean and variance used by the gamma approximation; p-values are between 0 and 1; a variable that is constant gets a p-value.", "quantifier": "every data set, kernels and draws", "why_tests_cant": "All data and draws.", "anchors": ["causallearn/utils/KCI/KCI.py:KCI_UInd.null_sample_spectral", "causallearn/utils/KCI/KCI.py:KCI_CInd.null_sample_spectral"]}
{"id": "C224", "title": "FastKCI: blocks and averages", "statement": "Each sample is in one block; the statistic of a partition is the sum of the KCI statistics of its blocks and does not depend on the names of the blocks; with one block it is KCI's statistic; the average over runs is defined and between the least and the greatest; p-values are between 0 and 1.", "quantifier": "every data set, number of runs below two million, partitions and draws", "why_tests_cant": "All partitions and draws.", "anchors": ["causallearn/utils/FastKCI/FastKCI.py:FastKCI_CInd.compute_pvalue", "causallearn/utils/FastKCI/FastKCI.py:FastKCI_CInd.pvalue_onblocks", "causallearn/utils/FastKCI/FastKCI.py:FastKCI_UInd.compute_pvalue", "causallearn/utils/FastKCI/FastKCI.py:FastKCI_UInd.pvalue_onblocks"]}
{"id": "C225", "title": "FastKCI: data without information", "statement": "When no block can be tested, or a variable is constant, independence is not rejected.", "quantifier": "every data set, partitions and draws", "why_tests_cant": "All partitions and draws.", "anchors": ["causallearn/utils/FastKCI/FastKCI.py:FastKCI_CInd.pvalue_onblocks", "causallearn/utils/FastKCI/FastKCI.py:FastKCI_UInd.pvalue_onblocks"]}
{"id": "C226", "title": "Registry of independence tests", "statement": "CIT(data, name) uses the class last registered under the name, else the built-in test of that name, else raises ValueError; a rejected registration changes nothing.", "quantifier": "every history of registrations, every name and options", "why_tests_cant": "All histories.", "anchors": ["causallearn/utils/cit.py:CIT", "causallearn/utils/cit.py:register_ci_test"]}
{"id": "C227", "title": "Options of the kernel tests", "statement": "An option of kci, fastkci or rcit given to CIT reaches the test with its value, and an unknown option is refused.", "quantifier": "every set of options", "why_tests_cant": "All options.", "anchors": ["causallearn/utils/cit.py:KCI", "causallearn/utils/cit.py:FastKCI", "causallearn/utils/cit.py:RCIT"]}
{"id": "C228", "title": "Missing and infinite values", "statement": "A test that cannot treat missing or infinite values refuses data that contains them; the codes of the discrete tests are equal exactly where the values are equal.", "quantifier": "every data set", "why_tests_cant": "All data.", "anchors": ["causallearn/utils/cit.py:CIT_Base.assert_input_data_is_valid", "causallearn/utils/cit.py:Chisq_or_Gsq"]}
{"id": "C229", "title": "BIC and units of measurement", "statement": "Multiplying each variable by a nonzero constant adds to the BIC local scores of each variable one constant, so no comparison of two sets of parents of a variable changes.", "quantifier": "every positive definite covariance matrix, nonzero constants, variable and sets of parents", "why_tests_cant": "All matrices and constants.", "anchors": ["causallearn/score/LocalScoreFunction.py:local_score_BIC", "causallearn/score/LocalScoreFunction.py:local_score_BIC_from_cov"]}
{"id": "C230", "title": "GES depends only on differences of local scores", "statement": "Adding one constant per variable to the local scores (as a change of units does to BIC) changes neither the operators GES applies nor any of its graphs, and shifts every reported score by the sum of the constants.", "quantifier": "every score, constants, number of variables and maxP", "why_tests_cant": "All scores and constants.", "anchors": ["causallearn/search/ScoreBased/GES.py:ges", "causallearn/utils/GESUtils.py:insert_changed_score", "causallearn/utils/GESUtils.py:delete_changed_score"]}
{"id": "C231", "title": "BOSS and GRaSP depend only on differences of local scores", "statement": "Adding one constant per variable to the local scores changes neither the orders and parents that BOSS and GRaSP find nor their graphs.", "quantifier": "every score of sets, constants, shuffles, tolerance and depth", "why_tests_cant": "All scores, constants and shuffles.", "anchors": ["causallearn/search/PermutationBased/BOSS.py:boss", "causallearn/search/PermutationBased/GRaSP.py:grasp", "causallearn/search/PermutationBased/gst.py:GST"]}
{"id": "C232", "title": "DirectLiNGAM and units of measurement", "statement": "Multiplying every variable by a nonzero constant and adding a constant to it does not change the causal order DirectLiNGAM finds, with either measure.", "quantifier": "every data set of one sample or more, number of variables, prior knowledge, constants and measure; for the kernel measure every function of the matrix in place of the singular values", "why_tests_cant": "All data and constants.", "anchors": ["causallearn/search/FCMBased/lingam/direct_lingam.py:DirectLiNGAM.fit", "causallearn/search/FCMBased/lingam/direct_lingam.py:DirectLiNGAM._search_causal_order", "causallearn/search/FCMBased/lingam/direct_lingam.py:DirectLiNGAM._search_causal_order_kernel", "causallearn/search/FCMBased/lingam/direct_lingam.py:DirectLiNGAM._mutual_information"]}
{"id": "C233", "title": "The measures of DirectLiNGAM", "statement": "Without prior knowledge each variable chosen has the greatest measure, in the data from which the variables chosen before have been removed; of two variables at most one is charged for their pair; the approximated entropy never exceeds that of a normal variable; the order of the samples does not matter.", "quantifier": "every data set, number of variables and measure", "why_tests_cant": "All data.", "anchors": ["causallearn/search/FCMBased/lingam/direct_lingam.py:DirectLiNGAM._entropy", "causallearn/search/FCMBased/lingam/direct_lingam.py:DirectLiNGAM._diff_mutual_info", "causallearn/search/FCMBased/lingam/direct_lingam.py:DirectLiNGAM._search_causal_order", "causallearn/search/FCMBased/lingam/direct_lingam.py:DirectLiNGAM._search_causal_order_kernel", "causallearn/search/FCMBased/lingam/direct_lingam.py:DirectLiNGAM.fit"]}
{"id": "C234", "title": "Residuals of DirectLiNGAM", "statement": "After a variable has been chosen, what remains of every other variable is uncorrelated with it.", "quantifier": "every two columns of two samples or more", "why_tests_cant": "All data.", "anchors": ["causallearn/search/FCMBased/lingam/direct_lingam.py:DirectLiNGAM._residual", "causallearn/search/FCMBased/lingam/multi_group_direct_lingam.py:MultiGroupDirectLiNGAM.fit"]}
{"id": "C235", "title": "DirectLiNGAM on integer data", "statement": "DirectLiNGAM treats an array of integers as it treats the same numbers as floats.", "quantifier": "every data set and variable removed", "why_tests_cant": "All data.", "anchors": ["causallearn/search/FCMBased/lingam/direct_lingam.py:DirectLiNGAM.fit", "causallearn/search/FCMBased/lingam/multi_group_direct_lingam.py:MultiGroupDirectLiNGAM.fit"]}
{"id": "C236", "title": "transfer_nodes_and_edges copies a graph", "statement": "Transferring a graph into a new one gives the same nodes in the same order and the same edges.", "quantifier": "every graph built through the API", "why_tests_cant": "All graphs.", "anchors": ["causallearn/graph/GeneralGraph.py:GeneralGraph.transfer_nodes_and_edges", "causallearn/graph/GeneralGraph.py:GeneralGraph.add_node", "causallearn/graph/GeneralGraph.py:GeneralGraph.add_edge"]}
{"id": "C237", "title": "Graphs built from one list of nodes are independent", "statement": "Adding a node to a graph, or removing one, changes no other graph, also if the other was built from the same list of nodes.", "quantifier": "every list of nodes and node", "why_tests_cant": "All lists and nodes.", "anchors": ["causallearn/graph/GeneralGraph.py:GeneralGraph.__init__", "causallearn/graph/GeneralGraph.py:GeneralGraph.add_node", "causallearn/graph/GeneralGraph.py:GeneralGraph.remove_node", "causallearn/utils/DAG2CPDAG.py:dag2cpdag"]}
{"id": "C238", "title": "remove_effect", "statement": "The features named stay as they are; what is left of every other one has mean zero and is orthogonal to the features named, no other combination of them leaves less, doing it again changes nothing, and what is left does not depend on what combination of them had been added.", "quantifier": "every data set, list of features and least squares routine that solves the normal equations", "why_tests_cant": "All data and features.", "anchors": ["causallearn/search/FCMBased/lingam/utils/__init__.py:remove_effect"]}
{"id": "C239", "title": "remove_effect on integers", "statement": "remove_effect treats an array of integers as it treats the same numbers as floats.", "quantifier": "every data set and list of features", "why_tests_cant": "All data.", "anchors": ["causallearn/search/FCMBased/lingam/utils/__init__.py:remove_effect"]}
{"id": "C240", "title": "make_dot draws the matrix", "statement": "There is an arrow from x_j to x_i, labelled with the coefficient, exactly where B[i, j] exceeds the limit, and a double-headed line for every pair whose direction is unknown (NaN).", "quantifier": "every matrix, size and limit not below zero", "why_tests_cant": "All matrices.", "anchors": ["causallearn/search/FCMBased/lingam/utils/__init__.py:make_dot"]}
{"id": "C241", "title": "A drawing shows the edges of the graph", "statement": "Every well-formed graph can be drawn with to_pydot and to_pgv; between two nodes the drawing has one line for every edge of the graph, with the edge's marks at the right ends, and no other line.", "quantifier": "every well-formed graph and pair of nodes", "why_tests_cant": "All graphs.", "anchors": ["causallearn/utils/GraphUtils.py:GraphUtils.to_pydot", "causallearn/utils/GraphUtils.py:GraphUtils.to_pgv"]}
{"id": "C242", "title": "The networkx forms of a graph", "statement": "to_nx_graph has exactly the undirected (green), directed (blue) and bidirected (red) edges of the graph, and to_nx_skeleton exactly its adjacencies.", "quantifier": "every graph", "why_tests_cant": "All graphs, all earlier conversions.", "anchors": ["causallearn/graph/GraphClass.py:CausalGraph.to_nx_graph", "causallearn/graph/GraphClass.py:CausalGraph.to_nx_skeleton"]}
{"id": "C243", "title": "matrix_diff", "statement": "matrix_diff lists exactly the ordered pairs that one graph joins and the other does not, each once; it is symmetric, satisfies the triangle inequality, and is empty only for equal graphs.", "quantifier": "every two graphs of the same size", "why_tests_cant": "All graphs.", "anchors": ["causallearn/search/ConstraintBased/PC.py:matrix_diff", "causallearn/search/ConstraintBased/PC.py:get_adjacancy_matrix"]}
{"id": "C244", "title": "remove_nodes and remove_edges", "statement": "remove_nodes removes the nodes of the list and no others, and leaves the edges between the remaining nodes as they are; removing the edges that get_graph_edges lists leaves no edge.", "quantifier": "every graph built through the API and list of its nodes or edges", "why_tests_cant": "All graphs and lists.", "anchors": ["causallearn/graph/GeneralGraph.py:GeneralGraph.remove_nodes", "causallearn/graph/GeneralGraph.py:GeneralGraph.remove_node", "causallearn/graph/GeneralGraph.py:GeneralGraph.remove_edges", "causallearn/graph/GeneralGraph.py:GeneralGraph.remove_edge"]}
{"id": "C245", "title": "set_nodes", "statement": "After set_nodes the graph has the nodes given, and all its methods agree on which edges join them.", "quantifier": "every graph and list of nodes", "why_tests_cant": "All graphs and lists.", "anchors": ["causallearn/graph/GeneralGraph.py:GeneralGraph.set_nodes", "causallearn/graph/GeneralGraph.py:GeneralGraph.get_edge", "causallearn/graph/GeneralGraph.py:GeneralGraph.get_graph_edges"]}
{"id": "C246", "title": "Annotated triples behave as a set", "statement": "A triple is annotated (ambiguous, underlined or dotted) exactly when it was added and not removed since; removing one that is there succeeds.", "quantifier": "every history of additions and removals", "why_tests_cant": "All histories.", "anchors": ["causallearn/graph/GeneralGraph.py:GeneralGraph.add_ambiguous_triple", "causallearn/graph/GeneralGraph.py:GeneralGraph.remove_ambiguous_triple", "causallearn/graph/GeneralGraph.py:GeneralGraph.is_ambiguous_triple", "causallearn/graph/GeneralGraph.py:GeneralGraph.add_underline_triple", "causallearn/graph/GeneralGraph.py:GeneralGraph.add_dotted_underline_triple"]}
{"id": "C247", "title": "The edges of the time series graph", "statement": "plot_time_series draws an edge from variable i at time s to variable j at time t exactly when there is a link from i to j with lag t - s; the links of a coefficient matrix are the entries of absolute value at least alpha; no two nodes are drawn at one place.", "quantifier": "every number of variables, lags and matrix", "why_tests_cant": "All matrices.", "anchors": ["causallearn/utils/TimeseriesVisualization.py:plot_time_series"]}
{"id": "C248", "title": "The order of the rows of the time series graph", "statement": "The variables are drawn from top to bottom in the order given, each beside its own label.", "quantifier": "every permutation of the variables", "why_tests_cant": "All orders.", "anchors": ["causallearn/utils/TimeseriesVisualization.py:plot_time_series"]}
{"id": "C249", "title": "eigdec gives the largest eigenvalues", "statement": "eigdec(x, N) gives the N largest of the eigenvalues in descending order, each with an eigenvector of its own that belongs to it.", "quantifier": "every list of eigenvalues, ties included, and N", "why_tests_cant": "All eigenvalues and N.", "anchors": ["causallearn/utils/ScoreUtils.py:eigdec"]}
{"id": "C250", "title": "Renaming a node keeps the graph intact", "statement": "After set_name on a node of a graph, the graph answers queries about the node as before.", "quantifier": "every graph, node and new name", "why_tests_cant": "All graphs and names.", "anchors": ["causallearn/graph/GraphNode.py:GraphNode.set_name", "causallearn/graph/GraphNode.py:GraphNode.__hash__", "causallearn/graph/GeneralGraph.py:GeneralGraph.get_edge", "causallearn/graph/GeneralGraph.py:GeneralGraph.get_node"]}
{"id": "C251", "title": "Adjacency precision and recall", "statement": "get_adj_precision (GraphUtils.adj_precision) returns, for every estimate, the fraction of its adjacent pairs that are adjacent in the truth, a number in [0,1] that is 1 exactly when all of them are; recall is the precision with the graphs exchanged.", "quantifier": "every two graphs over the same names", "why_tests_cant": "All graphs.", "anchors": ["causallearn/graph/AdjacencyConfusion.py:AdjacencyConfusion.get_adj_precision", "causallearn/graph/AdjacencyConfusion.py:AdjacencyConfusion.get_adj_recall", "causallearn/utils/GraphUtils.py:GraphUtils.adj_precision", "causallearn/utils/GraphUtils.py:GraphUtils.adj_recall"]}
{"id": "C252", "title": "Arrow precision and recall", "statement": "get_arrows_precision is the fraction of the estimate's arrowheads that are arrowheads of the truth, in [0,1], 1 exactly when all are; nan (never an exception) exactly when the estimate has no arrowhead; recall is the precision with the graphs exchanged.", "quantifier": "every two graphs over the same names", "why_tests_cant": "All graphs.", "anchors": ["causallearn/graph/ArrowConfusion.py:ArrowConfusion.get_arrows_precision", "causallearn/graph/ArrowConfusion.py:ArrowConfusion.get_arrows_recall", "causallearn/utils/GraphUtils.py:GraphUtils.arrow_precision", "causallearn/utils/GraphUtils.py:GraphUtils.arrow_recall"]}
{"id": "C253", "title": "Arrow precision over common edges", "statement": "The two ways to ask for the arrow precision over common edges agree; it is the fraction of the estimate's arrowheads on pairs adjacent in the truth that are arrowheads of the truth, nan exactly when there are none, and at least the plain precision.", "quantifier": "every two graphs without parallel edges over the same names", "why_tests_cant": "All graphs.", "anchors": ["causallearn/graph/ArrowConfusion.py:ArrowConfusion.get_arrows_precision_ce", "causallearn/graph/ArrowConfusion.py:ArrowConfusion.get_arrows_recall_ce", "causallearn/utils/GraphUtils.py:GraphUtils.arrow_precision_common_edges", "causallearn/utils/GraphUtils.py:GraphUtils.arrow_recall_common_edges"]}
{"id": "C254", "title": "CALM: units of the variables", "statement": "Multiplying the columns of the data by nonzero constants changes CALM's loss, at the weights in the new units and the same mask, by a constant independent of mask and weights; so does standardize=True.", "quantifier": "every data set, constants, mask and weights with positive residuals", "why_tests_cant": "All data and matrices of all dimensions.", "anchors": ["causallearn/search/ScoreBased/CALM.py:CalmModel.compute_likelihood", "causallearn/search/ScoreBased/CALM.py:CalmModel.compute_loss", "causallearn/search/ScoreBased/CALM.py:calm"]}
{"id": "C255", "title": "CALM: the loss at a DAG", "statement": "At an acyclic weight matrix CALM's likelihood term is half the sum of the logarithms of the mean squared residuals of each variable given the others, and at an acyclic 0/1 mask the loss adds lambda1 per arc and nothing else.", "quantifier": "every data set, acyclic mask and weights", "why_tests_cant": "All DAGs of all sizes.", "anchors": ["causallearn/search/ScoreBased/CALM.py:CalmModel.compute_likelihood", "causallearn/search/ScoreBased/CALM.py:CalmModel.compute_sparsity", "causallearn/search/ScoreBased/CALM.py:CalmModel.compute_loss"]}
{"id": "C256", "title": "RCD: residuals on common ancestors", "statement": "On float data, what RCD tests for a set of variables with known common ancestors has mean zero, is orthogonal to each of them and is the least that any combination leaves; it depends neither on the order of the ancestors nor on the solution the regression picks; without common ancestors it is the data.", "quantifier": "every data set, set of variables, set of ancestors and least squares routine that solves the normal equations", "why_tests_cant": "All data and sets.", "anchors": ["causallearn/search/FCMBased/lingam/rcd.py:RCD._get_residual_matrix", "causallearn/search/FCMBased/lingam/rcd.py:RCD._get_resid_and_coef"]}
{"id": "C257", "title": "RCD on integers", "statement": "RCD treats an array of integers as it treats the same numbers as floats.", "quantifier": "every data set and set of ancestors", "why_tests_cant": "All data.", "anchors": ["causallearn/search/FCMBased/lingam/rcd.py:RCD._get_residual_matrix", "causallearn/search/FCMBased/lingam/rcd.py:RCD.fit"]}
{"id": "C258", "title": "A p-value cache of other data is rejected", "statement": "Loading a cache file that was written for one data set into a test object over a different data set is refused.", "quantifier": "every two data sets, history of queries, text formatting and hash", "why_tests_cant": "All data sets and histories.", "anchors": ["causallearn/utils/cit.py:CIT_Base.__init__"]}
{"id": "C259", "title": "The cache file holds right answers only", "statement": "At any time, and after a crash at any moment except while the file is being written, the cache file is the one found at the start or a whole snapshot each of whose p-values the running test object gives for the same query.", "quantifier": "every history of calls at any times and every crash point", "why_tests_cant": "All histories, times and crash points.", "anchors": ["causallearn/utils/cit.py:CIT_Base.save_to_local_cache", "causallearn/utils/cit.py:CIT_Base.get_formatted_XYZ_and_cachekey"]}
{"id": "C260", "title": "The cache file survives and is complete", "statement": "When a run has ended, every p-value it computed is in its cache file; a crash loses at most the answers since the last save.", "quantifier": "every history of calls at any times and every crash point", "why_tests_cant": "All histories, times and crash points.", "anchors": ["causallearn/utils/cit.py:CIT_Base.save_to_local_cache"]}
{"id": "C261", "title": "Knowledge given to a grow-shrink tree", "statement": "After any history of set_knowledge, reset and trace calls, a trace answers as a fresh tree would, with distinct parents from the prefix, none of them forbidden and never the variable itself, and with every required parent of the prefix among them.", "quantifier": "every score that depends on the set of parents only, number of variables, history of calls and prefix", "why_tests_cant": "Quantifies over all call histories; the tree caches scores between calls.", "anchors": ["causallearn/search/PermutationBased/gst.py:GST.set_knowledge", "causallearn/search/PermutationBased/gst.py:GST.reset", "causallearn/search/PermutationBased/gst.py:GST.trace"]}
{"id": "C262", "title": "Attributes of nodes and graphs", "statement": "In a node, a GeneralGraph or a Dag, get_attribute(k) answers the value last given to add_attribute(k, .) on that object and raises KeyError when the key was never written or has been removed; remove_attribute removes the key; transfer_attributes hands the attributes to the other graph.", "quantifier": "every history of add_attribute, remove_attribute, get_attribute and transfer_attributes on any number of nodes and graphs, exceptions caught", "why_tests_cant": "The repository tests never touch attributes of graphs; aliasing shows only after a transfer followed by a write.", "anchors": ["causallearn/graph/GraphNode.py:GraphNode.add_attribute", "causallearn/graph/GeneralGraph.py:GeneralGraph.remove_attribute", "causallearn/graph/GeneralGraph.py:GeneralGraph.transfer_attributes", "causallearn/graph/Dag.py:Dag.remove_attribute"]}
{"id": "C263", "title": "clear() leaves a new graph", "statement": "After clear() a graph answers every later call as a newly constructed graph without nodes would.", "quantifier": "every graph, with its annotated triples and attributes, and every later history of node, edge, attribute and clear calls", "why_tests_cant": "The repository tests never call clear; a test on nodes and edges alone would not see what remains.", "anchors": ["causallearn/graph/GeneralGraph.py:GeneralGraph.clear", "causallearn/graph/Dag.py:Dag.clear"]}
{"id": "C264", "title": "Edges can be sorted", "statement": "< on edges is a strict order, so sorting a list of edges gives an arrangement that does not depend on the order they came in.", "quantifier": "every pair and triple of edges, and every list of fewer than 64 edges", "why_tests_cant": "The repository never sorts edges in a test; most small lists of edges sort well.", "anchors": ["causallearn/graph/Edge.py:Edge.__lt__"]}
{"id": "C265", "title": "Edge kinds, traversal and equality", "statement": "The constructors of Edges make an edge of exactly their kind, the is_* predicates tell the kind from the marks whichever way round the edge was written, traverse_directed leads from tail to arrowhead only, and == identifies edges that show the same marks at the same nodes.", "quantifier": "all pairs of nodes, all marks at both ends, all nodes traversed from", "why_tests_cant": "Tests use a few kinds in one direction.", "anchors": ["causallearn/graph/Edges.py:Edges", "causallearn/graph/Edge.py:Edge.__eq__"]}
{"id": "C266", "title": "Nodes of the same name", "statement": "Every node handed to GeneralGraph can be given edges and removed on its own, also when two of the nodes carry the same name.", "quantifier": "all node lists, repetitions allowed, all histories of edge operations, all removals", "why_tests_cant": "Tests use distinct names.", "anchors": ["causallearn/graph/GeneralGraph.py:GeneralGraph.__init__", "causallearn/graph/GeneralGraph.py:GeneralGraph.remove_node", "causallearn/graph/GraphNode.py:GraphNode.__eq__", "causallearn/graph/Dag.py:Dag.remove_node"]}
