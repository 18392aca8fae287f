{
 "claims": [
  {
   "property": "C01",
   "status": "partial",
   "theorems": [
    "C01_edge_marks",
    "C01_edge_mirror",
    "C01_edge_never_points_left",
    "C01_set_endpoint1_marks",
    "C01_set_endpoint2_marks",
    "C01_numeric_codes_follow_set1",
    "C01_numeric_codes_follow_set2_refuted",
    "C01_numeric_codes_follow_set2_partial",
    "C01_distal",
    "C01_points_toward"
   ],
   "note": "Proved except that set_endpoint2 desynchronises the numeric codes (Edge.py:137), refuted by witness."
  },
  {
   "property": "C02",
   "status": "partial",
   "theorems": [
    "C02_add_then_get_partial",
    "C02_circle_tail_dropped_refuted"
   ],
   "note": "True for every mark pair except circle-tail, which add_edge silently drops (refuted)."
  },
  {
   "property": "C03",
   "status": "partial",
   "theorems": [
    "C03_add_keeps_existing_partial",
    "C03_double_bidirected_refuted"
   ],
   "note": "True for pairs carrying at most one edge; refuted for a pair with two parallel edges."
  },
  {
   "property": "C04",
   "status": "proved",
   "theorems": [
    "C04_history_wellformed"
   ],
   "note": ""
  },
  {
   "property": "C05",
   "status": "partial",
   "theorems": [
    "C05_add_remove_roundtrip",
    "C05_remove_exact_partial",
    "C05_remove_absent_refuted"
   ],
   "note": "Round trip proved; exact removal proved without parallel edges, refuted with them."
  },
  {
   "property": "C06",
   "status": "partial",
   "theorems": [
    "C06_ancestor_sound",
    "C06_parallel_edges_refuted"
   ],
   "note": "Proved for every history that creates no parallel edges and avoids remove_connecting_edge and overwriting add_directed_edge; refuted with parallel edges."
  },
  {
   "property": "C07",
   "status": "partial",
   "theorems": [
    "C07_ancestor_complete_refuted",
    "C07_ancestor_exact_partial"
   ],
   "note": "Refuted: the incremental closure is incomplete; proved for insertion orders where the head has no children or the tail has no parents yet."
  },
  {
   "property": "C08",
   "status": "partial",
   "theorems": [
    "C08_remove_edge_not_stale",
    "C08_remove_connecting_edge_stale_refuted",
    "C08_add_directed_edge_overwrite_stale_refuted",
    "C08_dag_remove_edge_stale_refuted",
    "C08_remove_node",
    "C08_subgraph",
    "C08_add_node"
   ],
   "note": "Proved for remove_edge of GeneralGraph; refuted for remove_connecting_edge, overwriting add_directed_edge and for every Dag.remove_edge (the reconstituted closure keeps the old entry). C08_remove_node and C08_add_node: after remove_node every ancestor answer is backed by a directed path that avoids the removed node (and is reflexive and includes every parent); C08_subgraph says the same of a subgraph given in order; add_node changes no answer between old nodes and makes the new node its own only ancestor and descendant."
  },
  {
   "property": "C09",
   "status": "partial",
   "theorems": [
    "C09_parents_children",
    "C09_is_parent_of_partial",
    "C09_is_parent_of_refuted",
    "C09_edge_counts"
   ],
   "note": "Counts and parents/children proved; is_parent_of refuted for a tail-tail edge parallel to a bidirected edge."
  },
  {
   "property": "C10",
   "status": "proved",
   "theorems": [
    "C10_get_ancestors"
   ],
   "note": ""
  },
  {
   "property": "C11",
   "status": "partial",
   "theorems": [
    "C11_directed_path_search",
    "C11_cycle_check_never_true_refuted",
    "C11_no_false_cycle_partial"
   ],
   "note": "Refuted: exists_directed_cycle is False on every graph without parallel edges; the underlying path search is proved correct for distinct nodes."
  },
  {
   "property": "C12",
   "status": "proved",
   "theorems": [
    "C12_causal_order_topological",
    "C12_cyclic_never_returns_refuted"
   ],
   "note": "Proved for acyclic graphs; on cyclic graphs the promised ValueError never comes and the call never returns (refuted)."
  },
  {
   "property": "C13",
   "status": "proved",
   "theorems": [
    "C13_shd_symmetric",
    "C13_shd_zero_iff_same_edges",
    "C13_shd_triangle_and_bounds"
   ],
   "note": ""
  },
  {
   "property": "C14",
   "status": "proved",
   "theorems": [
    "C14_adjacency_confusion",
    "C14_self_and_edge_count"
   ],
   "note": ""
  },
  {
   "property": "C15",
   "status": "proved",
   "theorems": [
    "C15_arrow_confusion",
    "C15_arrowheads_are_indegrees",
    "C15_common_edges"
   ],
   "note": ""
  },
  {
   "property": "C16",
   "status": "proved",
   "theorems": [
    "C16_dag2cpdag_completed",
    "C16_agrees_with_dag",
    "C16_same_cpdag_iff_same_separations"
   ],
   "note": "Full functional correctness incl. termination; equivalence is graphical and, by MarkovEq (Verma and Pearl), also the equality of all d-separations."
  },
  {
   "property": "C17",
   "status": "proved",
   "theorems": [
    "C17_mec_check_decides",
    "C17_mec_check_decides_separations"
   ],
   "note": "Same number of nodes assumed (numpy broadcasting of different shapes not modelled)."
  },
  {
   "property": "C18",
   "status": "proved",
   "theorems": [
    "C18_pdag2dag_extension",
    "C18_same_colliders"
   ],
   "note": "Full, for all graphs with directed and undirected edges."
  },
  {
   "property": "C19",
   "status": "proved",
   "theorems": [
    "C19_returns_iff_extendable"
   ],
   "note": "Full (Dor-Tarsi completeness)."
  },
  {
   "property": "C20",
   "status": "proved",
   "theorems": [
    "C20_meek_conservative",
    "C20_meek_edges",
    "C20_definite_meek_conservative"
   ],
   "note": "Full: meek and definite_meek, with termination bound."
  },
  {
   "property": "C21",
   "status": "proved",
   "theorems": [
    "C21_meek_sound",
    "C21_definite_meek_sound"
   ],
   "note": "Full, for every consistent extension; also definite_meek."
  },
  {
   "property": "C22",
   "status": "proved",
   "theorems": [
    "C22_meek_respects_knowledge",
    "C22_orient_by_knowledge"
   ],
   "note": "meek, definite_meek and orient_by_background_knowledge."
  },
  {
   "property": "C23",
   "status": "proved",
   "theorems": [
    "C23_skeleton_oracle",
    "C23_fas_oracle"
   ],
   "note": "Test modelled as an arbitrary function answering d-separation of the DAG; both modes, skeleton_discovery and fas. oracle_exists shows that every DAG has such a test."
  },
  {
   "property": "C24",
   "status": "partial",
   "theorems": [
    "C24_sepset_nonstable_partial",
    "C24_fas_nonstable",
    "C24_spurious_empty_refuted",
    "C24_union_refuted"
   ],
   "note": "Refuted as stated: stable=False appends a spurious empty set to the genuine one (C24_spurious_empty_refuted); stable=True records the union of the sets found, which the test may reject (C24_union_refuted). Proved: what is recorded with stable=False for skeleton_discovery and fas. See C55, C56 for the true parts."
  },
  {
   "property": "C25",
   "status": "proved",
   "theorems": [
    "C25_skeleton_order_independent",
    "C25_fas_order_independent"
   ],
   "note": "Renumbering of variables as a bijection; the test and knowledge are renamed along."
  },
  {
   "property": "C26",
   "status": "proved",
   "theorems": [
    "C26_is_forbidden_iff",
    "C26_is_required_iff",
    "C26_tier_query"
   ],
   "note": "Exact characterisation over all histories."
  },
  {
   "property": "C27",
   "status": "proved",
   "theorems": [
    "C27_enumerates_all_combinations"
   ],
   "note": ""
  },
  {
   "property": "C28",
   "status": "proved",
   "theorems": [
    "C28_enumerates_subsets_by_size"
   ],
   "note": ""
  },
  {
   "property": "C29",
   "status": "proved",
   "theorems": [
    "C29_queue_refines_map",
    "C29_every_call_returns"
   ],
   "note": "Refinement of a finite map for all histories that never push a live key (the client discipline of ExactSearch); heapq by contract."
  },
  {
   "property": "C30",
   "status": "proved",
   "theorems": [
    "C30_best_parents",
    "C30_astar",
    "C30_dp",
    "C30_dp_path"
   ],
   "note": "Exact arithmetic on integer scores (every finite set of float scores can be scaled to integers; rounding is not modelled); scores -inf are not modelled. The priority queue enters by its contract (C29) and networkx.shortest_path by its contract."
  },
  {
   "property": "C31",
   "status": "proved",
   "theorems": [
    "C31_boss",
    "C31_grasp",
    "C31_boss_move",
    "C31_grasp_move"
   ],
   "note": "Scores are integers (exact arithmetic), with the code's 1e-6 as a positive integer eps. BOSS: every accepted move raises the score by at least eps. GRaSP: a successful search raises it when distinct order scores differ by more than eps; otherwise by the bound of C83_dfs (the code itself accepts moves that lose less than 1e-6)."
  },
  {
   "property": "C32",
   "status": "proved",
   "theorems": [
    "C32_answer_from_some_ordering",
    "C32_cache_invisible"
   ],
   "note": ""
  },
  {
   "property": "C33",
   "status": "proved",
   "theorems": [
    "C33_cache_key_iff_same_query",
    "C33_answers_are_computed_for_the_query",
    "C33_same_query_same_answer",
    "C33_answered_iff_admissible"
   ],
   "note": ""
  },
  {
   "property": "C34",
   "status": "partial",
   "theorems": [
    "C34_other_methods_cache_is_accepted_refuted",
    "C34_other_data_is_refused",
    "C34_accepted_files"
   ],
   "note": "Refuted for all pairs of methods; a cache for other data is refused (proved). C34_accepted_files says exactly which files are accepted, over all files."
  },
  {
   "property": "C35",
   "status": "partial",
   "theorems": [
    "C35_dconnection_correct_partial",
    "C35_marginal_dseparation",
    "C35_is_ancestor_correct",
    "C35_query_never_returns_refuted"
   ],
   "note": "Answers are correct whenever the query returns (all DAGs, all Z) and it always returns for empty Z; refuted in general: some queries never return."
  },
  {
   "property": "C36",
   "status": "proved",
   "theorems": [
    "C36_R1_R2",
    "C36_R3",
    "C36_R4",
    "C36_R5",
    "C36_R6_R7_R8",
    "C36_R9_R10",
    "C36_rules_loop",
    "C36_R5_uncovered_circle_path"
   ],
   "note": ""
  },
  {
   "property": "C37",
   "status": "proved",
   "theorems": [
    "C37_semi_directed_path"
   ],
   "note": ""
  },
  {
   "property": "C38",
   "status": "proved",
   "theorems": [
    "C38_what_is_read",
    "C38_round_trip"
   ],
   "note": "Characters are code points 0-255 (Python white space rules on them); the file is modelled as the string it holds, read with universal newlines."
  },
  {
   "property": "C39",
   "status": "proved",
   "theorems": [
    "C39_ges_hill_climb",
    "C39_scores_strictly_decrease"
   ],
   "note": "for score-equivalent scores; C92 is the version for all set scores"
  },
  {
   "property": "C40",
   "status": "partial",
   "theorems": [
    "C40_history_bookkeeping",
    "C40_remove_node",
    "C40_add_node",
    "C40_dag_remove_node_refuted"
   ],
   "note": "Proved for GeneralGraph histories; refuted for Dag.remove_node."
  },
  {
   "property": "C41",
   "status": "partial",
   "theorems": [
    "C41_sdh_symmetric_partial",
    "C41_sdh_raises_refuted",
    "C41_sdh_reversal_free_refuted",
    "C41_sdh_ignores_first_node_refuted"
   ],
   "note": "Symmetry proved; refuted: raises on pairs adjacent in neither graph, ignores the first node, a reversed edge costs 0."
  },
  {
   "property": "C42",
   "status": "partial",
   "theorems": [
    "C42_subgraph_in_order_partial",
    "C42_subgraph_order_refuted"
   ],
   "note": "Proved for node lists in graph order; refuted for other orders (edges come out permuted)."
  },
  {
   "property": "C43",
   "status": "partial",
   "theorems": [
    "C43_equality_ignores_names_refuted",
    "C43_equality_corrupts_refuted",
    "C43_equal_same_matrix_partial"
   ],
   "note": "Refuted: names are ignored and evaluation sorts the node list in place, corrupting the graph; equal graphs do have equal matrices."
  },
  {
   "property": "C44",
   "status": "partial",
   "theorems": [
    "C44_remove_from_other_tier_refuted",
    "C44_tier_listing_refuted"
   ],
   "note": "Refuted in both halves by reachable histories."
  },
  {
   "property": "C45",
   "status": "partial",
   "theorems": [
    "C45_returned_list_is_overwritten_refuted"
   ],
   "note": "Refuted for all sizes."
  },
  {
   "property": "C46",
   "status": "partial",
   "theorems": [
    "C46_depth_next_after_end_raises_refuted",
    "C46_choice_generator_stays_exhausted"
   ],
   "note": "Proved for ChoiceGenerator; refuted for DepthChoiceGenerator (IndexError)."
  },
  {
   "property": "C47",
   "status": "partial",
   "theorems": [
    "C47_duplicate_key_refuted"
   ],
   "note": "Refuted: KeyError on a non-empty queue."
  },
  {
   "property": "C48",
   "status": "proved",
   "theorems": [
    "C48_meek_exhausts_rules",
    "C48_meek_closed"
   ],
   "note": "Full."
  },
  {
   "property": "C49",
   "status": "partial",
   "theorems": [
    "C49_meek_not_maximal_refuted"
   ],
   "note": "Refuted: the fourth Meek rule is missing, so edges directed by knowledge can leave compelled edges undirected."
  },
  {
   "property": "C50",
   "status": "partial",
   "theorems": [
    "C50_pdag2dag_may_hang_refuted"
   ],
   "note": "Refuted: hangs on the undirected four-cycle."
  },
  {
   "property": "C51",
   "status": "partial",
   "theorems": [
    "C51_mec_check_node_order_refuted"
   ],
   "note": "Refuted: the comparison is positional. The property holds when both DAGs list their nodes in the same order (C17)."
  },
  {
   "property": "C52",
   "status": "proved",
   "theorems": [
    "C52_forbidden_absent",
    "C52_fas_forbidden_absent"
   ],
   "note": ""
  },
  {
   "property": "C53",
   "status": "partial",
   "theorems": [
    "C53_forbidden_kept_refuted"
   ],
   "note": "Refuted: `break` leaves the neighbour loop before later forbidden neighbours are removed."
  },
  {
   "property": "C54",
   "status": "proved",
   "theorems": [
    "C54_skeleton_terminates",
    "C54_fas_terminates",
    "C54_skeleton_edges",
    "C54_fas_edges"
   ],
   "note": ""
  },
  {
   "property": "C55",
   "status": "proved",
   "theorems": [
    "C55_fas_oracle_sepsets",
    "C55_skeleton_oracle_sepsets"
   ],
   "note": ""
  },
  {
   "property": "C56",
   "status": "proved",
   "theorems": [
    "C56_stable_sepsets",
    "C56_fas_stable_sepsets"
   ],
   "note": ""
  },
  {
   "property": "C57",
   "status": "proved",
   "theorems": [
    "C57_pc_oracle_separations",
    "C57_pc_oracle"
   ],
   "note": ""
  },
  {
   "property": "C58",
   "status": "proved",
   "theorems": [
    "C58_meek_completes_pattern"
   ],
   "note": ""
  },
  {
   "property": "C59",
   "status": "proved",
   "theorems": [
    "C59_new_arrowheads",
    "C59_bidirected_complete",
    "C59_keep_existing"
   ],
   "note": ""
  },
  {
   "property": "C60",
   "status": "proved",
   "theorems": [
    "C60_pc_respects_knowledge"
   ],
   "note": ""
  },
  {
   "property": "C61",
   "status": "proved",
   "theorems": [
    "C61_pc_total"
   ],
   "note": ""
  },
  {
   "property": "C62",
   "status": "partial",
   "theorems": [
    "C62_pc_oracle_acyclic_partial",
    "C62_pc_cycle_refuted"
   ],
   "note": "Proved for perfect tests; the unrestricted claim is refuted by a concrete run of the default mode (C62_pc_cycle_refuted)."
  },
  {
   "property": "C63",
   "status": "proved",
   "theorems": [
    "C63_outdegree",
    "C63_max_degree"
   ],
   "note": ""
  },
  {
   "property": "C64",
   "status": "partial",
   "theorems": [
    "C64_indegree_partial",
    "C64_indegree_refuted"
   ],
   "note": ""
  },
  {
   "property": "C65",
   "status": "partial",
   "theorems": [
    "C65_nodes_by_mark_partial",
    "C65_nodes_into_refuted"
   ],
   "note": ""
  },
  {
   "property": "C66",
   "status": "proved",
   "theorems": [
    "C66_def_collider"
   ],
   "note": ""
  },
  {
   "property": "C67",
   "status": "partial",
   "theorems": [
    "C67_def_noncollider_partial",
    "C67_circles_refuted"
   ],
   "note": ""
  },
  {
   "property": "C68",
   "status": "partial",
   "theorems": [
    "C68_contains_edge_partial",
    "C68_circle_tail_refuted"
   ],
   "note": ""
  },
  {
   "property": "C69",
   "status": "proved",
   "theorems": [
    "C69_adjacency",
    "C69_exists_trek"
   ],
   "note": ""
  },
  {
   "property": "C70",
   "status": "proved",
   "theorems": [
    "C70_fci_returns"
   ],
   "note": ""
  },
  {
   "property": "C71",
   "status": "proved",
   "theorems": [
    "C71_missing_edge",
    "C71_inseparable_adjacent"
   ],
   "note": ""
  },
  {
   "property": "C72",
   "status": "partial",
   "theorems": [
    "C72_closed_partial",
    "C72_closed_R5_R10_partial",
    "C72_closed_R3_partial",
    "C72_R8_refuted",
    "C72_R4_refuted",
    "C72_R10_refuted",
    "C72_R5_oracle",
    "C72_R5_refuted"
   ],
   "note": "Closed under R1, R2, R6, R7, R9 (and R3 without latent variables), R8 for one index order, R5 on chordless four-cycles for every test and knowledge and on cycles of any length under an oracle (C72_R5_oracle), R10 for children with paths to both parents. Refuted: R4 is tried only after R1-R3 changed something, so telling FCI a true edge can lose an orientation (C72_R4_refuted); R5 misses longer cycles when the breadth-first search meets a covered path first (C72_R5_refuted); R10 misses children that are the parents themselves (C72_R10_refuted); R8 misses one index order."
  },
  {
   "property": "C73",
   "status": "partial",
   "theorems": [
    "C73_forbidden",
    "C73_required_partial",
    "C73_required_refuted"
   ],
   "note": "Forbidden part proved for all runs; required part partial and refuted in general."
  },
  {
   "property": "C74",
   "status": "proved",
   "theorems": [
    "C74_rule0",
    "C74_fci_colliders"
   ],
   "note": ""
  },
  {
   "property": "C75",
   "status": "partial",
   "theorems": [
    "C75_R9_refuted",
    "C75_possible_dsep_refuted"
   ],
   "note": "Both parts of the claim are false of the code; the counterexamples are concrete runs of the model."
  },
  {
   "property": "C76",
   "status": "partial",
   "theorems": [
    "C76_labels_partial",
    "C76_visible_refuted"
   ],
   "note": "Labels proved sound as far as they are given; completeness of the visible label refuted."
  },
  {
   "property": "C77",
   "status": "proved",
   "theorems": [
    "C77_marks",
    "C77_edges",
    "C77_adjacent",
    "C77_triples",
    "C77_cond_sets"
   ],
   "note": ""
  },
  {
   "property": "C78",
   "status": "partial",
   "theorems": [
    "C78_R1_R2_R3_R8_partial",
    "C78_R4_R9_R10_partial",
    "C78_fci_triangle_free_partial",
    "C78_fci_refuted"
   ],
   "note": "Rule-by-rule soundness and the triangle-free theorem proved; the unrestricted claim is refuted by a concrete DAG."
  },
  {
   "property": "C79",
   "status": "partial",
   "theorems": [
    "C79_circles_refuted"
   ],
   "note": "Refuted by two-node graphs."
  },
  {
   "property": "C80",
   "status": "partial",
   "theorems": [
    "C80_k_cycle_refuted"
   ],
   "note": "Refuted: compute_dynamic_h adds the costs of stored patterns inside the variables already placed (its argument) although the patterns are costs of the variables still to be placed; with three variables the search returns a graph of score -4 where -7 is possible."
  },
  {
   "property": "C81",
   "status": "proved",
   "theorems": [
    "C81_boss_optimum"
   ],
   "note": ""
  },
  {
   "property": "C82",
   "status": "proved",
   "theorems": [
    "C82_history",
    "C82_choice"
   ],
   "note": ""
  },
  {
   "property": "C83",
   "status": "proved",
   "theorems": [
    "C83_dfs",
    "C83_terminates",
    "C83_tuck"
   ],
   "note": ""
  },
  {
   "property": "C84",
   "status": "partial",
   "theorems": [
    "C84_refuted"
   ],
   "note": "Refuted: dfs iterates over the very list object that update() clears and refills, so after a failed attempt the loop continues over a stale/changed list and may skip parents."
  },
  {
   "property": "C85",
   "status": "partial",
   "theorems": [
    "C85_refuted"
   ],
   "note": "Refuted: GSTNode.grow sorts its branches in ascending order of score, so trace takes the worst improving candidate first."
  },
  {
   "property": "C86",
   "status": "partial",
   "theorems": [
    "C86_refuted"
   ],
   "note": "Refuted: the edge bumps of the plateau moves are lost when a nested search succeeds."
  },
  {
   "property": "C87",
   "status": "partial",
   "theorems": [
    "C87_empty_refuted",
    "C87_circle_tail_refuted"
   ],
   "note": "Refuted by two families of graphs."
  },
  {
   "property": "C88",
   "status": "proved",
   "theorems": [
    "C88_forward_local_optimum"
   ],
   "note": "optimum over every member DAG of the class the forward phase ends in"
  },
  {
   "property": "C89",
   "status": "proved",
   "theorems": [
    "C89_backward_local_optimum"
   ],
   "note": "optimum over every member DAG of the returned class"
  },
  {
   "property": "C90",
   "status": "proved",
   "theorems": [
    "C90_forward_local_markov"
   ],
   "note": "independence of single variables (composition lifts it to sets)"
  },
  {
   "property": "C91",
   "status": "proved",
   "theorems": [
    "C91_strong_adjacency_found"
   ],
   "note": "both phases"
  },
  {
   "property": "C92",
   "status": "proved",
   "theorems": [
    "C92_ges_any_score"
   ],
   "note": "scores are exact integers instead of floats"
  },
  {
   "property": "C93",
   "status": "partial",
   "theorems": [
    "C93_maxP_not_respected_refuted"
   ],
   "note": "refuted: compelled parents are counted only, and with <="
  },
  {
   "property": "C94",
   "status": "partial",
   "theorems": [
    "C94_recorded_steps_refuted"
   ],
   "note": "refuted: insert and delete mutate the recorded graph object"
  },
  {
   "property": "C95",
   "status": "partial",
   "theorems": [
    "C95_reported_score_refuted"
   ],
   "note": "refuted: N = 2 with a direction-dependent score"
  },
  {
   "property": "C96",
   "status": "proved",
   "theorems": [
    "C96_BDeu_score_equivalent",
    "C96_BDeu_parent_order",
    "C96_ges_with_BDeu"
   ],
   "note": "log-gamma and the prior terms are arbitrary functions; exact arithmetic"
  },
  {
   "property": "C97",
   "status": "proved",
   "theorems": [
    "C97_BIC_score_equivalent",
    "C97_BIC_parent_order",
    "C97_BIC_residual_positive",
    "C97_BIC_parent_cost"
   ],
   "note": "Over the real numbers (Coq's Reals axioms); np.linalg.inv by its contract; floating point rounding and the LinAlgError branch for singular matrices are not modelled."
  },
  {
   "property": "C98",
   "status": "proved",
   "theorems": [
    "C98_textbook_statistic",
    "C98_chisq_zero_iff_independent"
   ],
   "note": "Statistic over Coq's reals (stdlib Reals axioms); 64-bit overflow of the flat index and rounding not modelled; chi2.sf is an arbitrary function."
  },
  {
   "property": "C99",
   "status": "proved",
   "theorems": [
    "C99_symmetric",
    "C99_conditioning_order",
    "C99_sample_order"
   ],
   "note": "Same model as C98."
  },
  {
   "property": "C100",
   "status": "proved",
   "theorems": [
    "C100_recoding"
   ],
   "note": "Same model as C98."
  },
  {
   "property": "C101",
   "status": "proved",
   "theorems": [
    "C101_iamb_returns_the_blanket"
   ],
   "note": ""
  },
  {
   "property": "C102",
   "status": "proved",
   "theorems": [
    "C102_iamb_any_test"
   ],
   "note": ""
  },
  {
   "property": "C103",
   "status": "proved",
   "theorems": [
    "C103_network_is_the_or_rule",
    "C103_network_is_the_moral_graph"
   ],
   "note": ""
  },
  {
   "property": "C104",
   "status": "partial",
   "theorems": [
    "C104_network_and_rule_refuted"
   ],
   "note": "Refuted: markov_network_raw is already symmetrised when the blankets are written, so the logical_and with its transpose is the identity and the OR rule is computed (C103)."
  },
  {
   "property": "C105",
   "status": "proved",
   "theorems": [
    "C105_dag2pag_adjacencies"
   ],
   "note": ""
  },
  {
   "property": "C106",
   "status": "proved",
   "theorems": [
    "C106_before_rules",
    "C106_colliders"
   ],
   "note": ""
  },
  {
   "property": "C107",
   "status": "proved",
   "theorems": [
    "C107_closed"
   ],
   "note": "R8 is only tried with a before c (the same limitation as C72); R10 is not covered."
  },
  {
   "property": "C108",
   "status": "partial",
   "theorems": [
    "C108_R3_refuted",
    "C108_R4_refuted"
   ],
   "note": "Refuted twice: sepset holds Node objects while ruleR3 and ruleR4B look up integer indices, so R3 never applies (C108_R3_refuted) and R4's fallback always says collider, which puts an arrowhead at a parent even without latent variables (C108_R4_refuted). What does hold is C105-C107."
  },
  {
   "property": "C109",
   "status": "proved",
   "theorems": [
    "C109_cdnod_oracle"
   ],
   "note": "The index is modelled as a variable of the DAG (the paper's surrogate); mvcdnod_alg's skeleton correction is not modelled."
  },
  {
   "property": "C110",
   "status": "proved",
   "theorems": [
    "C110_cdnod_total",
    "C110_index_is_cause"
   ],
   "note": ""
  },
  {
   "property": "C111",
   "status": "proved",
   "theorems": [
    "C111_cdnod_respects_knowledge"
   ],
   "note": ""
  },
  {
   "property": "C112",
   "status": "partial",
   "theorems": [
    "C112_mv_index_is_effect_refuted",
    "C112_priority_0_1_refuted"
   ],
   "note": "Refuted: mvcdnod_alg calls add_directed_edge with its arguments the other way round from cdnod_alg, so every edge at the index points into it (C112_mv_index_is_effect_refuted); with uc_priority 0 or 1 a collider at the index turns its edges or makes them bidirected (C112_priority_0_1_refuted)."
  },
  {
   "property": "C113",
   "status": "partial",
   "theorems": [
    "C113_knowledge_at_index_refuted",
    "C113_forbidden_pair_refuted"
   ],
   "note": "Refuted: the edges at the index are oriented before the knowledge is looked at (C113_knowledge_at_index_refuted), and the skeleton search is run without the knowledge, so a pair forbidden both ways stays adjacent (C113_forbidden_pair_refuted). What holds is C111."
  },
  {
   "property": "C114",
   "status": "proved",
   "theorems": [
    "C114_coefficients_follow_order",
    "C114_coefficients_kept"
   ],
   "note": "The adaptive lasso is an arbitrary function of predictors and target; coefficients are integers in the model."
  },
  {
   "property": "C115",
   "status": "proved",
   "theorems": [
    "C115_order_is_permutation",
    "C115_no_knowledge"
   ],
   "note": ""
  },
  {
   "property": "C116",
   "status": "proved",
   "theorems": [
    "C116_constructor_raises",
    "C116_order_respects_knowledge",
    "C116_fit_succeeds_iff",
    "C116_excluded_coefficients"
   ],
   "note": ""
  },
  {
   "property": "C117",
   "status": "proved",
   "theorems": [
    "C117_soft_knowledge",
    "C117_soft_succeeds"
   ],
   "note": ""
  },
  {
   "property": "C118",
   "status": "partial",
   "theorems": [
    "C118_refit_forgets_orders_refuted"
   ],
   "note": "Refuted: fit consumes self._partial_orders, which only the constructor fills: after one successful fit the order of any later fit is the one an object without knowledge finds (C118_refit_forgets_orders_refuted; C118_ex is a concrete reversal)."
  },
  {
   "property": "C119",
   "status": "partial",
   "theorems": [
    "C119_discarded_refuted",
    "C119_indirect_path_refuted",
    "C119_required_path_refuted"
   ],
   "note": "Refuted: 'no path' in both directions and nothing else is discarded altogether, so the excluded coefficient is estimated; next to other knowledge it only excludes the two coefficients, not an indirect path; a demanded path only fixes the order. What holds is C116."
  },
  {
   "property": "C120",
   "status": "proved",
   "theorems": [
    "C120_strict_search",
    "C120_estimate",
    "C120_fit"
   ],
   "note": ""
  },
  {
   "property": "C121",
   "status": "partial",
   "theorems": [
    "C121_two_variables_refuted",
    "C121_one_variable_refuted"
   ],
   "note": "Refuted: the loop sets one more entry to zero before its first look, so with two variables the order is always 0, 1 and with one variable fit raises. What holds is C120."
  },
  {
   "property": "C122",
   "status": "proved",
   "theorems": [
    "C122_make_prior_knowledge",
    "C122_honoured"
   ],
   "note": ""
  },
  {
   "property": "C123",
   "status": "proved",
   "theorems": [
    "C123_sink_and_exogenous",
    "C123_fitted_model_has_both"
   ],
   "note": ""
  },
  {
   "property": "C124",
   "status": "proved",
   "theorems": [
    "C124_find_all_paths",
    "C124_terminates"
   ],
   "note": ""
  },
  {
   "property": "C125",
   "status": "partial",
   "theorems": [
    "C125_same_variable_refuted",
    "C125_cycle_refuted"
   ],
   "note": "Refuted: the list of successors of the start is shared with the bottom of the stack, so a cycle through the start can go unnoticed and a 'path' visits a variable twice; for equal variables numpy.cumprod([])[-1] raises IndexError."
  },
  {
   "property": "C126",
   "status": "proved",
   "theorems": [
    "C126_direction_counts",
    "C126_graph_counts",
    "C126_probabilities"
   ],
   "note": "Coefficients are integers in the model; numpy's argsort is any function that sorts."
  },
  {
   "property": "C127",
   "status": "proved",
   "theorems": [
    "C127_get_paths"
   ],
   "note": ""
  },
  {
   "property": "C128",
   "status": "partial",
   "theorems": [
    "C128_paths_ignore_threshold_refuted"
   ],
   "note": "Refuted: min_causal_effect is checked but never passed to find_all_paths."
  },
  {
   "property": "C129",
   "status": "proved",
   "theorems": [
    "C129_matrix_order",
    "C129_propagation"
   ],
   "note": "Real arithmetic instead of floating point; the tolerance 1e-10 is a parameter and coefficients are zero or at least the tolerance."
  },
  {
   "property": "C130",
   "status": "proved",
   "theorems": [
    "C130_total_effect"
   ],
   "note": ""
  },
  {
   "property": "C131",
   "status": "proved",
   "theorems": [
    "C131_mean_is_neutral",
    "C131_effects_on_prediction",
    "C131_linear_prediction"
   ],
   "note": ""
  },
  {
   "property": "C132",
   "status": "proved",
   "theorems": [
    "C132_optimal_intervention",
    "C132_denominator_is_the_total_effect",
    "C132_can_finish"
   ],
   "note": ""
  },
  {
   "property": "C133",
   "status": "partial",
   "theorems": [
    "C133_cancelling_row_refuted"
   ],
   "note": "Refuted: root variables are recognised by a zero signed row sum, so x2 = x0 - x1 is taken for a root and its total effect is ignored."
  },
  {
   "property": "C134",
   "status": "proved",
   "theorems": [
    "C134_order_partitions_variables",
    "C134_sinks_were_tested"
   ],
   "note": "The HSIC/F-correlation tests (Fisher p-values) and the adaptive lasso are arbitrary functions."
  },
  {
   "property": "C135",
   "status": "proved",
   "theorems": [
    "C135_matrix",
    "C135_acyclic"
   ],
   "note": ""
  },
  {
   "property": "C136",
   "status": "proved",
   "theorems": [
    "C136_order_respects_knowledge",
    "C136_excluded_coefficients",
    "C136_cycles_stay_unordered",
    "C136_only_candidate_tested"
   ],
   "note": ""
  },
  {
   "property": "C137",
   "status": "partial",
   "theorems": [
    "C137_one_variable_refuted",
    "C137_refit_forgets_orders_refuted",
    "C137_sink_not_tested_refuted"
   ],
   "note": "Refuted: one variable raises ZeroDivisionError; fit consumes the partial orders, so a second fit ignores them; with knowledge the candidates are only regressed on the other candidates, not on all remaining variables."
  },
  {
   "property": "C138",
   "status": "proved",
   "theorems": [
    "C138_terminates_antisymmetric"
   ],
   "note": ""
  },
  {
   "property": "C139",
   "status": "proved",
   "theorems": [
    "C139_every_ancestor_has_evidence",
    "C139_sound",
    "C139_pairs_complete"
   ],
   "note": "The tests (Shapiro, Pearson, HSIC) and regressions are arbitrary functions of the residual variables they look at."
  },
  {
   "property": "C140",
   "status": "proved",
   "theorems": [
    "C140_matrix",
    "C140_coefficients_one_way",
    "C140_error_p_values",
    "C140_effect_is_nan",
    "C140_effect_adjusts_for_parents"
   ],
   "note": ""
  },
  {
   "property": "C141",
   "status": "partial",
   "theorems": [
    "C141_acyclic_refuted",
    "C141_transitive_refuted",
    "C141_complete_refuted"
   ],
   "note": "Refuted: contradictory pairwise tests give a cyclic adjacency matrix; ancestors of ancestors are not added; hu_history skips a set whose common ancestors did not change although newly found ancestors now leave only one sink."
  },
  {
   "property": "C142",
   "status": "proved",
   "theorems": [
    "C142_terminates_antisymmetric"
   ],
   "note": ""
  },
  {
   "property": "C143",
   "status": "proved",
   "theorems": [
    "C143_parents",
    "C143_sound"
   ],
   "note": "The GAM regressions and HSIC p-values are arbitrary functions; alpha >= 0."
  },
  {
   "property": "C144",
   "status": "proved",
   "theorems": [
    "C144_unobserved_pairs",
    "C144_causal_pairs"
   ],
   "note": ""
  },
  {
   "property": "C145",
   "status": "partial",
   "theorems": [
    "C145_acyclic_refuted"
   ],
   "note": "Refuted: contradictory pairwise tests give x0 -> x1 -> x2 -> x0; only direct two-way relations are excluded."
  },
  {
   "property": "C146",
   "status": "proved",
   "theorems": [
    "C146_correction"
   ],
   "note": ""
  },
  {
   "property": "C147",
   "status": "proved",
   "theorems": [
    "C147_stable_sepsets"
   ],
   "note": ""
  },
  {
   "property": "C148",
   "status": "partial",
   "theorems": [
    "C148_mvpc_oracle_partial"
   ],
   "note": "Partial: without background knowledge, and with stable=True or a rule that does not use recorded separating sets (C149 refutes the remaining mode). The tests are functions of the variables and the conditioning set."
  },
  {
   "property": "C149",
   "status": "partial",
   "theorems": [
    "C149_unstable_mode_returns_refuted"
   ],
   "note": "Refuted: in the unstable mode skeleton_correction removes edges without recording a separating set, and UCSepset then fails on the unshielded triple left (0 -> 2 <- 1, spurious dependence of 0 and 1 in the deletion test)."
  },
  {
   "property": "C150",
   "status": "proved",
   "theorems": [
    "C150_detect_parent",
    "C150_detect_parent_oracle",
    "C150_missingness_pairs"
   ],
   "note": ""
  },
  {
   "property": "C151",
   "status": "proved",
   "theorems": [
    "C151_merge",
    "C151_array_split"
   ],
   "note": ""
  },
  {
   "property": "C152",
   "status": "proved",
   "theorems": [
    "C152_clusters"
   ],
   "note": ""
  },
  {
   "property": "C153",
   "status": "proved",
   "theorems": [
    "C153_causal_order"
   ],
   "note": ""
  },
  {
   "property": "C154",
   "status": "proved",
   "theorems": [
    "C154_gin_graph"
   ],
   "note": "Surrogates, tests and Fisher's combination are arbitrary functions."
  },
  {
   "property": "C155",
   "status": "partial",
   "theorems": [
    "C155_remaining_variables_tested_refuted"
   ],
   "note": "Refuted: the loops test data[:, [z]] for z in range(len(Z)), i.e. the first columns of the data, instead of the columns of the remaining variables."
  },
  {
   "property": "C156",
   "status": "proved",
   "theorems": [
    "C156_gin_mi"
   ],
   "note": ""
  },
  {
   "property": "C157",
   "status": "partial",
   "theorems": [
    "C157_every_variable_refuted"
   ],
   "note": "Refuted: one variable gives an empty graph, two raise ZeroDivisionError, statistics >= 1e9 raise IndexError."
  },
  {
   "property": "C158",
   "status": "proved",
   "theorems": [
    "C158_errors_are_structural",
    "C158_lag_selection"
   ],
   "note": ""
  },
  {
   "property": "C159",
   "status": "partial",
   "theorems": [
    "C159_pruned_errors_refuted"
   ],
   "note": "Refuted: the errors are computed from the pruned instantaneous matrix and the unpruned residuals."
  },
  {
   "property": "C160",
   "status": "proved",
   "theorems": [
    "C160_instantaneous_order"
   ],
   "note": ""
  },
  {
   "property": "C161",
   "status": "partial",
   "theorems": [
    "C161_pruned_coefficients",
    "C161_dropped_lags_refuted"
   ],
   "note": "The regressors are proved to be the right columns; refuted when the criterion chose fewer lags: the regressions use lags the matrices do not have."
  },
  {
   "property": "C162",
   "status": "partial",
   "theorems": [
    "C162_refit_keeps_coefficients_refuted",
    "C162_not_a_function_of_the_data_refuted"
   ],
   "note": "Refuted: the first fit stores its autoregressive coefficients in the object and later fits reuse them."
  },
  {
   "property": "C163",
   "status": "partial",
   "theorems": [
    "C163_bootstrap_lagged_refuted"
   ],
   "note": "Refuted: the coefficients of the first fit are used for every sample."
  },
  {
   "property": "C164",
   "status": "partial",
   "theorems": [
    "C164_instantaneous_effects",
    "C164_lagged_effects_refuted"
   ],
   "note": "Instantaneous effects are proved; refuted for the lags: every lag is written to the columns of lag 1."
  },
  {
   "property": "C165",
   "status": "partial",
   "theorems": [
    "C165_columns",
    "C165_first_rows_wrap_refuted",
    "C165_predictors"
   ],
   "note": "Refuted in the first rows: np.roll puts the end of the series there."
  },
  {
   "property": "C166",
   "status": "partial",
   "theorems": [
    "C166_reduced_form",
    "C166_order_selection",
    "C166_moving_average_refuted"
   ],
   "note": "The reduced form is proved; the documented form is refuted: np.dot's third argument is an output array, so that omega lacks the factor inv(I - psi_0)."
  },
  {
   "property": "C167",
   "status": "partial",
   "theorems": [
    "C167_pruning_with_coefficients_refuted",
    "C167_refit_raises_refuted",
    "C167_bootstrap_raises_refuted",
    "C167_bootstrap_zero_order_refuted",
    "C167_refit_keeps_coefficients_refuted"
   ],
   "note": "Refuted in each of its parts."
  },
  {
   "property": "C168",
   "status": "proved",
   "theorems": [
    "C168_instantaneous_order",
    "C168_pruned_coefficients",
    "C168_columns"
   ],
   "note": ""
  },
  {
   "property": "C169",
   "status": "partial",
   "theorems": [
    "C169_lags_confused_refuted",
    "C169_parent_column_refuted"
   ],
   "note": "Refuted: all positive lags give the effect of lag 1, and parents at the last lag are read as errors."
  },
  {
   "property": "C170",
   "status": "proved",
   "theorems": [
    "C170_fit_succeeds_iff",
    "C170_errors_are_structural",
    "C170_instantaneous_order",
    "C170_lagged_regression"
   ],
   "note": ""
  },
  {
   "property": "C171",
   "status": "partial",
   "theorems": [
    "C171_future_data_refuted",
    "C171_target_is_predictor_refuted",
    "C171_errors_refuted"
   ],
   "note": "Refuted: negative Python indices reach the last time points, possibly the target itself."
  },
  {
   "property": "C172",
   "status": "partial",
   "theorems": [
    "C172_missing_matrices",
    "C172_documented_up_to_two_lags",
    "C172_three_lags_refuted"
   ],
   "note": "Proved for up to two lags, refuted from three on: only the matrix of lag t + 1 is NaN."
  },
  {
   "property": "C173",
   "status": "partial",
   "theorems": [
    "C173_effect_table",
    "C173_effect_regression",
    "C173_original_data_refuted"
   ],
   "note": "The layout is proved; refuted: the effects are estimated on the original data."
  },
  {
   "property": "C174",
   "status": "proved",
   "theorems": [
    "C174_common_order",
    "C174_fit_succeeds_iff",
    "C174_knowledge_respected"
   ],
   "note": ""
  },
  {
   "property": "C175",
   "status": "partial",
   "theorems": [
    "C175_order_of_data_sets",
    "C175_copies_of_one_data_set",
    "C175_different_sizes_refuted"
   ],
   "note": "Exchangeability is proved; data sets of different sizes always raise (np.array of a ragged list, numpy >= 1.24)."
  },
  {
   "property": "C176",
   "status": "partial",
   "theorems": [
    "C176_samples",
    "C176_effect_regression",
    "C176_first_sample_knowledge",
    "C176_later_samples_refuted"
   ],
   "note": "Refuted in its last part: the first sample respects the knowledge, later ones need not (the fit consumes it)."
  },
  {
   "property": "C177",
   "status": "proved",
   "theorems": [
    "C177_get_sepset",
    "C177_arguments_swapped"
   ],
   "note": ""
  },
  {
   "property": "C178",
   "status": "partial",
   "theorems": [
    "C178_latent_refuted",
    "C178_dag_method_refuted"
   ],
   "note": "Refuted in both parts: the node type is compared with a bound method, and Dag.get_sepset calls an instance method on the class."
  },
  {
   "property": "C179",
   "status": "partial",
   "theorems": [
    "C179_last_and_another_refuted",
    "C179_wrong_edges_refuted",
    "C179_one_node_removed_partial"
   ],
   "note": "Proved when at most one node is left out and the order is kept; refuted otherwise: rows are deleted by their old indices from the matrix that has already shrunk, and leaving out the last node and another one always raises."
  },
  {
   "property": "C180",
   "status": "partial",
   "theorems": [
    "C180_raises_refuted",
    "C180_two_latents_refuted",
    "C180_confounded_edge_refuted",
    "C180_no_circles_refuted"
   ],
   "note": "Refuted in each of its parts: add_edge(None) raises for every pair of observed nodes that no edge and no single latent node joins; confounded edges are lost; circles never occur."
  },
  {
   "property": "C181",
   "status": "partial",
   "theorems": [
    "C181_layout_partial",
    "C181_reported_is_significant_partial",
    "C181_significant_is_reported_partial",
    "C181_self_influence_refuted",
    "C181_rounding_refuted"
   ],
   "note": "Layout proved, and exactness up to rounding for levels with four decimals; refuted: p-values are rounded to four decimals before they are compared, and every variable is reported to influence itself at every lag, untested."
  },
  {
   "property": "C182",
   "status": "proved",
   "theorems": [
    "C182_granger_lasso"
   ],
   "note": ""
  },
  {
   "property": "C183",
   "status": "partial",
   "theorems": [
    "C183_graph",
    "C183_within_moral_graph",
    "C183_weights_disagree_refuted"
   ],
   "note": "Proved for the graph and the weights separately; refuted that they agree: with both directions on, the weights keep both arcs."
  },
  {
   "property": "C184",
   "status": "partial",
   "theorems": [
    "C184_constraint",
    "C184_stopping",
    "C184_dag_partial",
    "C184_up_to_seven_variables_partial",
    "C184_eight_variables_refuted",
    "C184_unconverged_refuted"
   ],
   "note": "Proved: the constraint characterises acyclicity; the graph is a DAG if the constraint is met and htol (2d)^L < L C(d,L) for all L, which for the default tolerance holds up to seven variables. Refuted for eight variables (a ring passes the default tolerance) and when training ends because rho or the rounds run out."
  },
  {
   "property": "C185",
   "status": "proved",
   "theorems": [
    "C185_centering",
    "C185_kernels_symmetric"
   ],
   "note": ""
  },
  {
   "property": "C186",
   "status": "partial",
   "theorems": [
    "C186_nonneg",
    "C186_symmetric",
    "C186_sample_order",
    "C186_units_partial",
    "C186_p_range",
    "C186_spectral_p_range",
    "C186_constant_refuted",
    "C186_median_units_refuted"
   ],
   "note": "Proved: symmetric, order of samples, range, units for all widths but the median. Refuted: the median width is found before the data are normalised, so it depends on the units; a constant variable gives NaN."
  },
  {
   "property": "C187",
   "status": "partial",
   "theorems": [
    "C187_nonneg",
    "C187_sample_order",
    "C187_units",
    "C187_asymmetric_refuted",
    "C187_asymmetric_example"
   ],
   "note": "Proved: order of samples and units, for all kernels. Refuted: half of z is appended to x only, so with linear kernels the statistics of (x, y) and (y, x) differ whenever the correlations with z differ."
  },
  {
   "property": "C188",
   "status": "partial",
   "theorems": [
    "C188_swap",
    "C188_p_range",
    "C188_residual_scale",
    "C188_perfect_fit_refuted"
   ],
   "note": "Refuted: a residual that is constant gives NaN, so a noise-free relation is not accepted."
  },
  {
   "property": "C189",
   "status": "partial",
   "theorems": [
    "C189_pairing_refuted",
    "C189_dependent_refuted",
    "C189_mean_refuted",
    "C189_swap_partial",
    "C189_swap_refuted"
   ],
   "note": "Refuted: the p-value is that of a t-test of equal means between cause and noise; it ignores their pairing, is 1 for noise equal to the cause, and any statistic can be had by shifting the noise. Swap proved for training without random numbers, refuted in general."
  },
  {
   "property": "C190",
   "status": "proved",
   "theorems": [
    "C190_partial_correlation",
    "C190_outcome",
    "C190_p_value",
    "C190_call"
   ],
   "note": ""
  },
  {
   "property": "C191",
   "status": "proved",
   "theorems": [
    "C191_swap_and_reorder",
    "C191_sample_order",
    "C191_units",
    "C191_call"
   ],
   "note": ""
  },
  {
   "property": "C192",
   "status": "proved",
   "theorems": [
    "C192_complete_cases",
    "C192_other_values",
    "C192_no_missing"
   ],
   "note": ""
  },
  {
   "property": "C193",
   "status": "proved",
   "theorems": [
    "C193_needs_correction",
    "C193_closure",
    "C193_sample_size",
    "C193_uncorrected",
    "C193_virtual_data"
   ],
   "note": ""
  },
  {
   "property": "C194",
   "status": "proved",
   "theorems": [
    "C194_kernel",
    "C194_centering"
   ],
   "note": "Over the reals."
  },
  {
   "property": "C195",
   "status": "proved",
   "theorems": [
    "C195_nonneg",
    "C195_symmetric",
    "C195_cauchy_schwarz",
    "C195_self",
    "C195_test_statistic"
   ],
   "note": "The Gaussian kernel is shown to be a limit of finite Gram matrices (power series of exp); the same argument gives C186_nonneg and C187_nonneg for the kernel tests KCI_UInd and KCI_CInd."
  },
  {
   "property": "C196",
   "status": "partial",
   "theorems": [
    "C196_sample_order_partial",
    "C196_units",
    "C196_sample_order_refuted"
   ],
   "note": "Order invariance holds for rules of thumb that do not depend on the order and for at most 100 samples; C196_sample_order_refuted: with 101 samples moving one sample from the end to the front turns NaN into a number."
  },
  {
   "property": "C197",
   "status": "proved",
   "theorems": [
    "C197_width",
    "C197_median",
    "C197_few_samples",
    "C197_p_value",
    "C197_p_range"
   ],
   "note": "The distribution function of scipy is a parameter (values in [0, 1]); met by any variable that is not constant tested against itself (C197_p_value_met)."
  },
  {
   "property": "C198",
   "status": "partial",
   "theorems": [
    "C198_same_test",
    "C198_given_kernels",
    "C198_decision",
    "C198_few_samples",
    "C198_constant_refuted"
   ],
   "note": "C198_constant_refuted: a constant variable is independent of everything, but the p-value is NaN and the decision dependent. ppf is assumed inverse to cdf."
  },
  {
   "property": "C199",
   "status": "partial",
   "theorems": [
    "C199_objective",
    "C199_sign_refuted"
   ],
   "note": "C199_sign_refuted: the width of the residual is wi - sum c_j w_j, so replacing y_j by -y_j and c_j by -c_j leaves the residual unchanged but not the objective (and the width can be 0 or negative). The optimiser (L-BFGS) is not modelled."
  },
  {
   "property": "C200",
   "status": "partial",
   "theorems": [
    "C200_centering_refuted",
    "C200_met"
   ],
   "note": "C200_centering_refuted: H0 * K * H0 multiplies elementwise, which gives (1 - 2/T) I + K / T^2, so the rows never add up to 0 and the data change the entries by less than 1/T^2."
  },
  {
   "property": "C201",
   "status": "proved",
   "theorems": [
    "C201_folds",
    "C201_sizes",
    "C201_no_training"
   ],
   "note": ""
  },
  {
   "property": "C202",
   "status": "partial",
   "theorems": [
    "C202_residuals",
    "C202_positive_definite",
    "C202_number",
    "C202_mahalanobis",
    "C202_likelihood_refuted",
    "C202_met"
   ],
   "note": "C202_likelihood_refuted: the log-determinant is counted half. The inverse (pdinv) and the logarithm of the diagonal of the Cholesky factor are parameters, assumed correct for positive definite matrices."
  },
  {
   "property": "C203",
   "status": "proved",
   "theorems": [
    "C203_units",
    "C203_other_variables",
    "C203_order",
    "C203_constant"
   ],
   "note": ""
  },
  {
   "property": "C204",
   "status": "partial",
   "theorems": [
    "C204_marginal_refuted",
    "C204_multi_refuted",
    "C204_multi_alone_refuted",
    "C204_met"
   ],
   "note": "C204_marginal_refuted: np.diag(1 / ell) * x.T is elementwise and raises ValueError for 2 <= number of parents < T; C204_multi_refuted: with d > 1 columns reshape(-1, 1) makes the shapes incompatible; C204_multi_alone_refuted: cv_multi without parents raises for 3 or more folds and T >= 2k."
  },
  {
   "property": "C205",
   "status": "partial",
   "theorems": [
    "C205_alpha",
    "C205_gradient_partial",
    "C205_signal_refuted",
    "C205_noise_refuted"
   ],
   "note": "C205_gradient_partial, C205_signal_refuted, C205_noise_refuted: only the last component of the gradient is computed, the others are 0, and the last one is that of elementwise products; signal and noise components differ from the derivative."
  },
  {
   "property": "C206",
   "status": "partial",
   "theorems": [
    "C206_descent",
    "C206_first_component_refuted",
    "C206_first_step"
   ],
   "note": "C206_first_component_refuted: products of column vectors are taken at their first component, so a function with first gradient component 0 gets at most two line searches (41 evaluations). The direction that becomes a square matrix after a successful line search with two or more parameters is not followed."
  },
  {
   "property": "C207",
   "status": "partial",
   "theorems": [
    "C207_hyperparameters_refuted",
    "C207_met"
   ],
   "note": "C207_hyperparameters_refuted: length scale and signal are returned as they started, after at most 41 evaluations."
  },
  {
   "property": "C208",
   "status": "partial",
   "theorems": [
    "C208_never_found_refuted"
   ],
   "note": "Refuted for every input: line 306 takes the fourth node from get_node1, so the result is the empty list on every DAG."
  },
  {
   "property": "C209",
   "status": "proved",
   "theorems": [
    "C209_triangles",
    "C209_kites"
   ],
   "note": ""
  },
  {
   "property": "C210",
   "status": "proved",
   "theorems": [
    "C210_completed"
   ],
   "note": "Termination within n*n + 1 rounds and the completed graph, for all DAGs; the diagonal may be -1 or NaN."
  },
  {
   "property": "C211",
   "status": "partial",
   "theorems": [
    "C211_kinds",
    "C211_edges",
    "C211_triples",
    "C211_degree",
    "C211_conditioning_sets",
    "C211_same_set_twice_refuted"
   ],
   "note": "All finders proved; the conditioning sets cover what they should, but the same set can appear twice under two orders of its members."
  },
  {
   "property": "C212",
   "status": "partial",
   "theorems": [
    "C212_reads",
    "C212_round_trip",
    "C212_one_node_refuted"
   ],
   "note": "Tokenised files (the parsing of the text itself is not modelled); node numbers within range. Refuted for a single node, which reads back as an empty matrix."
  },
  {
   "property": "C213",
   "status": "partial",
   "theorems": [
    "C213_digraph",
    "C213_is_dsep_fails_refuted",
    "C213_rearrange"
   ],
   "note": "adjmat2digraph and rearrange_columns proved; is_dsep refuted: on every graph made by adjmat2digraph it raises, because it asks about strings while the nodes are integers. networkx.is_d_separator is represented by its documented node check only."
  },
  {
   "property": "C214",
   "status": "partial",
   "theorems": [
    "C214_bootstrap",
    "C214_data_independent",
    "C214_resampled_effects_refuted",
    "C214_model_after",
    "C214_multi_group"
   ],
   "note": "Refuted for BootstrapMixin: line 52 estimates on the original data, so only the structure is bootstrapped; MultiGroupDirectLiNGAM uses the resampled data."
  },
  {
   "property": "C215",
   "status": "partial",
   "theorems": [
    "C215_total_causal_effects",
    "C215_effects_above_threshold_refuted"
   ],
   "note": "Listing, probabilities and order proved; refuted for the effect: the median is over all nonzero effects, so a listed effect can be below the threshold."
  },
  {
   "property": "C216",
   "status": "proved",
   "theorems": [
    "C216_path_effects"
   ],
   "note": ""
  },
  {
   "property": "C217",
   "status": "proved",
   "theorems": [
    "C217_longitudinal_counts",
    "C217_columns"
   ],
   "note": ""
  },
  {
   "property": "C218",
   "status": "proved",
   "theorems": [
    "C218_blocks",
    "C218_longitudinal"
   ],
   "note": ""
  },
  {
   "property": "C219",
   "status": "proved",
   "theorems": [
    "C219_rit_units",
    "C219_rcit_units",
    "C219_positive_units",
    "C219_rit_sample_order",
    "C219_rcit_sample_order",
    "C219_defined_example"
   ],
   "note": ""
  },
  {
   "property": "C220",
   "status": "proved",
   "theorems": [
    "C220_residuals",
    "C220_two_statistics",
    "C220_features_centred",
    "C220_inverse_example"
   ],
   "note": ""
  },
  {
   "property": "C221",
   "status": "partial",
   "theorems": [
    "C221_range",
    "C221_conditional_range",
    "C221_permutation",
    "C221_permutation_zero_refuted",
    "C221_statistic",
    "C221_single_feature_refuted",
    "C221_fallback",
    "C221_zero_example_refuted"
   ],
   "note": "Range and statistic proved; refuted: the permutation p-value is 0 whenever no permutation exceeds the statistic, and with one feature the requested approximation is replaced by hbe."
  },
  {
   "property": "C222",
   "status": "proved",
   "theorems": [
    "C222_example",
    "C222_traces",
    "C222_gamma_p",
    "C222_gamma_range",
    "C222_sample_order"
   ],
   "note": ""
  },
  {
   "property": "C223",
   "status": "partial",
   "theorems": [
    "C223_unconditional",
    "C223_conditional",
    "C223_range",
    "C223_constant_refuted"
   ],
   "note": "Moments and range proved; refuted for constants: a constant y gives NaN with the gamma approximation and raises with the simulated one."
  },
  {
   "property": "C224",
   "status": "proved",
   "theorems": [
    "C224_partition",
    "C224_additive",
    "C224_additive_unconditional",
    "C224_relabel",
    "C224_one_block",
    "C224_one_block_unconditional",
    "C224_defined",
    "C224_range",
    "C224_between",
    "C224_reduces_to_kci",
    "C224_examples"
   ],
   "note": ""
  },
  {
   "property": "C225",
   "status": "partial",
   "theorems": [
    "C225_small_blocks_refuted",
    "C225_few_samples_refuted",
    "C225_constant_refuted",
    "C225_constant_block_refuted"
   ],
   "note": "Refuted: with only blocks of less than 6 samples FastKCI_CInd reports p = 0 for all data, FastKCI_UInd reports p = 0 for a constant, and FastKCI_CInd raises when y is constant in a block."
  },
  {
   "property": "C226",
   "status": "proved",
   "theorems": [
    "C226_registered",
    "C226_unregistered"
   ],
   "note": ""
  },
  {
   "property": "C227",
   "status": "partial",
   "theorems": [
    "C227_kci_options",
    "C227_rcit_options",
    "C227_fastkci_options",
    "C227_null_ss_refuted",
    "C227_ignored_refuted",
    "C227_nullss_ignored_refuted"
   ],
   "note": "Forwarded options proved; refuted: null_ss raises a TypeError for kci (the conditional test calls it nullss), nullss and every option that is not forwarded are silently ignored."
  },
  {
   "property": "C228",
   "status": "partial",
   "theorems": [
    "C228_refused",
    "C228_accepted",
    "C228_missing",
    "C228_codes",
    "C228_discrete_refuted"
   ],
   "note": "Proved for fisherz, kci, fastkci, rcit, mv_fisherz and mc_fisherz; refuted for chisq and gsq, which take missing values as one more category."
  },
  {
   "property": "C229",
   "status": "proved",
   "theorems": [
    "C229_BIC_units",
    "C229_BIC_units_comparison"
   ],
   "note": ""
  },
  {
   "property": "C230",
   "status": "proved",
   "theorems": [
    "C230_GES_units"
   ],
   "note": ""
  },
  {
   "property": "C231",
   "status": "proved",
   "theorems": [
    "C231_boss_units",
    "C231_grasp_units"
   ],
   "note": ""
  },
  {
   "property": "C232",
   "status": "proved",
   "theorems": [
    "C232_units"
   ],
   "note": ""
  },
  {
   "property": "C233",
   "status": "proved",
   "theorems": [
    "C233_instance",
    "C233_no_knowledge",
    "C233_entropy_below_normal",
    "C233_one_side_charged",
    "C233_standardized",
    "C233_score_nonpositive",
    "C233_sample_order"
   ],
   "note": ""
  },
  {
   "property": "C234",
   "status": "partial",
   "theorems": [
    "C234_residual_partial",
    "C234_multiple_partial",
    "C234_uncorrelated_refuted"
   ],
   "note": "False: _residual divides np.cov, which divides by n - 1, by np.var, which divides by n, so the covariance with the regressor becomes -1/(n-1) times what it was; of an exact multiple c*y + d there remains d - c/(n-1)*y instead of a constant (C234_*_partial, for all data). Refuted by C234_uncorrelated_refuted."
  },
  {
   "property": "C235",
   "status": "partial",
   "theorems": [
    "C235_cut_off_partial",
    "C235_type_matters_refuted"
   ],
   "note": "False: fit copies the checked array, which keeps an integer type, and assigns the residuals into it, which cuts them off towards zero; what remains is less than one unit away and right only where the residual is an integer (C235_cut_off_partial). C235_type_matters_refuted: two binary variables of which nothing remains, so that the next standardization divides by zero."
  },
  {
   "property": "C236",
   "status": "partial",
   "theorems": [
    "C236_transfer_partial",
    "C236_circle_tail_refuted"
   ],
   "note": "False for one kind of edge: if the earlier node has a circle and the later one a tail, get_graph_edges reports Edge(CIRCLE, TAIL), which add_edge silently refuses, so it is lost (C236_circle_tail_refuted). C236_transfer_partial: everything else is copied, for all graphs."
  },
  {
   "property": "C237",
   "status": "partial",
   "theorems": [
    "C237_separate_partial",
    "C237_own_partial",
    "C237_shared_refuted"
   ],
   "note": "False: the constructor keeps the list it is given, get_nodes returns it, and add_node and remove_node change it in place (so dag2cpdag's result shares its list with the DAG). C237_shared_refuted: for every list, a node added to one of two such graphs appears among the nodes of the other, where every edge query with it raises and adding it is refused. C237_*_partial: graphs over separate lists are independent."
  },
  {
   "property": "C238",
   "status": "proved",
   "theorems": [
    "C238_removed",
    "C238_idempotent",
    "C238_what_was_added"
   ],
   "note": ""
  },
  {
   "property": "C239",
   "status": "partial",
   "theorems": [
    "C239_cut_off_partial",
    "C239_type_matters_refuted"
   ],
   "note": "False: the result is assigned into the copied array, which keeps its integer type (C239_cut_off_partial, for all data). C239_type_matters_refuted: two binary variables of which nothing is left although least squares leaves 1/2 and -1/2."
  },
  {
   "property": "C240",
   "status": "partial",
   "theorems": [
    "C240_arrows",
    "C240_double_lines",
    "C240_unknown_pairs_partial",
    "C240_upper_refuted"
   ],
   "note": "Arrows are right for all matrices. Unknown directions: only entries on and below the diagonal are drawn (np.tril), so NaN above the diagonal only gives no line at all (C240_upper_refuted); with NaN on both sides, as the library's own methods write it, every unknown pair has its line (C240_unknown_pairs_partial)."
  },
  {
   "property": "C241",
   "status": "partial",
   "theorems": [
    "C241_drawn",
    "C241_strict_partial",
    "C241_parallel_refuted"
   ],
   "note": "to_pydot: proved for all well-formed graphs (C241_drawn). to_pgv: the same drawing for graphs without parallel edges (C241_strict_partial); with them false, since the AGraph is strict: of 0 --> 1 and 0 <-> 1 only the second is drawn (C241_parallel_refuted)."
  },
  {
   "property": "C242",
   "status": "partial",
   "theorems": [
    "C242_colors_partial",
    "C242_stale_refuted",
    "C242_skeleton_partial",
    "C242_circle_refuted"
   ],
   "note": "C242_colors_partial: right on the empty nx_graph of a new object, for all graphs. False when called again after the graph changed: nothing is ever removed (C242_stale_refuted). Skeleton: right when every mark is a tail or an arrowhead (C242_skeleton_partial); with circles 0 <-o 1 is missing although 2 <-o 1 is there (C242_circle_refuted)."
  },
  {
   "property": "C243",
   "status": "partial",
   "theorems": [
    "C243_cells",
    "C243_distance",
    "C243_equal_partial",
    "C243_blind_refuted"
   ],
   "note": "C243_cells and C243_distance for all graphs; C243_equal_partial: empty only for equal graphs of directed and undirected edges. Otherwise false: an undirected edge counts as a bidirected one and one with a circle as none (C243_blind_refuted, which also shows that a missing directed edge counts 1/2). The first result is half the number of pairs."
  },
  {
   "property": "C244",
   "status": "partial",
   "theorems": [
    "C244_nodes_partial",
    "C244_own_list_refuted",
    "C244_edges"
   ],
   "note": "Edges: proved, parallel edges included (C244_edges). Nodes: with a list of its own as stated (C244_nodes_partial); g.remove_nodes(g.get_nodes()) is false for every graph of two or more nodes, since get_nodes is the list that remove_node cuts while the loop goes through it: every second node stays (C244_own_list_refuted). Dag.remove_nodes: see C40."
  },
  {
   "property": "C245",
   "status": "partial",
   "theorems": [
    "C245_unknown_refuted",
    "C245_order_refuted",
    "C245_length_partial"
   ],
   "note": "False: set_nodes replaces the list but not node_map. For every graph the new nodes are not known (KeyError) and the old ones still answered for (C245_unknown_refuted); the same nodes in another order make get_edge and get_graph_edges contradict each other (C245_order_refuted). A list of another length is refused (C245_length_partial)."
  },
  {
   "property": "C246",
   "status": "partial",
   "theorems": [
    "C246_count",
    "C246_remove",
    "C246_set_refuted"
   ],
   "note": "C246_count, C246_remove: for all histories a triple is there just when it was added more often than removed. So they are no set: added twice and removed once it is still there (C246_set_refuted)."
  },
  {
   "property": "C247",
   "status": "proved",
   "theorems": [
    "C247_edges",
    "C247_places",
    "C247_threshold"
   ],
   "note": "Proved. Drawing itself (networkx, matplotlib) and the scaling of places to [0, 1] are not modelled."
  },
  {
   "property": "C248",
   "status": "partial",
   "theorems": [
    "C248_order_partial",
    "C248_labels",
    "C248_order_refuted"
   ],
   "note": "Every variable stands beside its own label (C248_labels), but the order is that of the inverse permutation: right exactly when doing order twice changes nothing (C248_order_partial), so 1, 2, 0 puts variable 2 at the top (C248_order_refuted)."
  },
  {
   "property": "C249",
   "status": "partial",
   "theorems": [
    "C249_sorted",
    "C249_sparse_partial",
    "C249_sparse_refuted"
   ],
   "note": "C249_sorted: right for the eigenvalues found, ties and results already in order included. With N at most m/25 those found are the largest in absolute value: right without negative eigenvalues, as of kernel matrices (C249_sparse_partial), otherwise false (C249_sparse_refuted). That np.linalg.eig and eigs find eigenvalues and vectors is not modelled, nor are complex numbers."
  },
  {
   "property": "C250",
   "status": "partial",
   "theorems": [
    "C250_lookup_partial",
    "C250_lost_refuted",
    "C250_mistaken_refuted"
   ],
   "note": "False: the hash of a node is that of its name, so node_map no longer finds it. For every graph and name with a hash of its own: every query about the node raises KeyError, also through another node object with the old name, although get_node(new name) gives it (C250_lost_refuted); a node given the name of another one is silently answered for with the edges of the other (C250_mistaken_refuted). C250_lookup_partial: without renaming, node objects of equal names are interchangeable."
  },
  {
   "property": "C251",
   "status": "partial",
   "theorems": [
    "C251_adjacency_precision_partial",
    "C251_self",
    "C251_always_defined_refuted"
   ],
   "note": "'For every estimate' is false: an estimate without edges makes precision raise ZeroDivisionError for every truth, and as the truth it makes recall raise (C251_always_defined_refuted). C251_adjacency_precision_partial: everything else, with raising exactly in that case."
  },
  {
   "property": "C252",
   "status": "proved",
   "theorems": [
    "C252_arrow_precision"
   ],
   "note": ""
  },
  {
   "property": "C253",
   "status": "proved",
   "theorems": [
    "C253_common_edge_precision"
   ],
   "note": ""
  },
  {
   "property": "C254",
   "status": "proved",
   "theorems": [
    "C254_units",
    "C254_loss_units",
    "C254_standardize"
   ],
   "note": "The determinant in slogdet is defined in the model as the sum over permutations; logarithms of zero residuals (-inf in the code) are excluded by hypothesis."
  },
  {
   "property": "C255",
   "status": "proved",
   "theorems": [
    "C255_residual_variance",
    "C255_acyclic_objective",
    "C255_acyclic_loss"
   ],
   "note": ""
  },
  {
   "property": "C256",
   "status": "proved",
   "theorems": [
    "C256_residuals",
    "C256_order_and_solver"
   ],
   "note": ""
  },
  {
   "property": "C257",
   "status": "partial",
   "theorems": [
    "C257_cut_off_partial",
    "C257_integers_refuted"
   ],
   "note": "False: _get_residual_matrix writes into np.zeros_like(X), which keeps the integer type, so residuals are cut off towards zero; there is an integer data set whose residuals become constant (C257_integers_refuted). C257_cut_off_partial: they are off by less than 1, and zero where they are below 1."
  },
  {
   "property": "C258",
   "status": "partial",
   "theorems": [
    "C258_other_data_accepted_refuted",
    "C258_small_data_partial"
   ],
   "note": "False: the hash is taken of str(data), and numpy shows only the first and last three rows and columns of an array of more than 1000 entries. For any two such data sets that agree there (even with different numbers of samples), every formatting and hash and every history, the cache is accepted and the p-values of the first data are served for the second (C258_other_data_accepted_refuted). C258_small_data_partial: data sets of one shape with at most 1000 entries are told apart, for an injective formatting and hash."
  },
  {
   "property": "C259",
   "status": "proved",
   "theorems": [
    "C259_file_is_right"
   ],
   "note": ""
  },
  {
   "property": "C260",
   "status": "partial",
   "theorems": [
    "C260_short_run_refuted",
    "C260_last_answer_refuted",
    "C260_crash_refuted",
    "C260_save_times"
   ],
   "note": "False: a run within 30 seconds of construction writes nothing (C260_short_run_refuted); the p-value computed by the last call is never in the file (C260_last_answer_refuted); a crash while the file is rewritten leaves one that no test object can start from, whatever it held (C260_crash_refuted). C260_save_times says when saves happen."
  },
  {
   "property": "C261",
   "status": "partial",
   "theorems": [
    "C261_forbidden_partial",
    "C261_required_refuted",
    "C261_own_parent_refuted"
   ],
   "note": "False as stated: required parents are stored and never read (C261_required_refuted), and a forbidden list that omits the variable lets it become its own parent (C261_own_parent_refuted); the code calls both lists 'not implemented'. The rest is proved for every history (C261_forbidden_partial): the answer is that of a fresh tree with the forbidden list in force."
  },
  {
   "property": "C262",
   "status": "partial",
   "theorems": [
    "C262_add",
    "C262_absent",
    "C262_node_remove",
    "C262_graph_remove_refuted",
    "C262_transfer_shares"
   ],
   "note": "False for graphs: remove_attribute subscripts a method and raises TypeError after every history (C262_graph_remove_refuted), and transfer_attributes shares one dictionary instead of copying it, so later writes to either graph show in both (C262_transfer_shares). Reading back, absence and removal from a node are proved for every history without transfers. The dictionary's entry order is not modelled."
  },
  {
   "property": "C263",
   "status": "partial",
   "theorems": [
    "C263_clear_nodes_edges",
    "C263_clear_empties",
    "C263_clear_annotations_refuted"
   ],
   "note": "Proved for nodes and edges (C263_clear_nodes_edges: the same graph as a new one after every history). False for the rest: annotated triples and attributes of the old graph remain (C263_clear_annotations_refuted). Dag.clear raises NotImplementedError (read, not modelled); the flags pattern and pag are not modelled."
  },
  {
   "property": "C264",
   "status": "partial",
   "theorems": [
    "C264_lt_connected",
    "C264_aligned_order",
    "C264_sort_permutes",
    "C264_aligned_sorts",
    "C264_not_an_order_refuted",
    "C264_no_sorted_arrangement_refuted"
   ],
   "note": "False: two edges of which one is first in the first node and last in the second are each less than the other (C264_not_an_order_refuted), and no list with such a pair has a sorted arrangement (C264_no_sorted_arrangement_refuted). Proved: < is irreflexive and connected, a strict order among aligned edges, sort only permutes, and a list of pairwise aligned edges comes out sorted (C264_aligned_sorts). list.sort is modelled for fewer than 64 elements (run, then binary insertion)."
  },
  {
   "property": "C265",
   "status": "partial",
   "theorems": [
    "C265_kinds",
    "C265_constructors",
    "C265_traverse",
    "C265_any_fields",
    "C265_equality",
    "C265_mirror_equality_refuted"
   ],
   "note": "Proved for the constructors, the predicates and traverse_directed. False for ==: it compares the stored fields, so an edge without a single arrowhead (a -- b, a <-> b, a o-o b) is not == to the same edge written from b to a (C265_mirror_equality_refuted)."
  },
  {
   "property": "C266",
   "status": "partial",
   "theorems": [
    "C266_last_position",
    "C266_shadowed_isolated_refuted",
    "C266_remove_mismatch_refuted",
    "C266_distinct",
    "C266_shadowed_iff",
    "C266_dag_remove_refuted"
   ],
   "note": "False for repeated names. A name always stands for its last position in the list (C266_last_position); the row and column of an earlier position of the name stay empty under every history of edge operations (C266_shadowed_isolated_refuted); remove_node drops the first node of that name from the list but the last one's row and column from the matrix (C266_remove_mismatch_refuted), so in [X; Y; Z; X] with Y --> Z removing X leaves the edge Z --> X (C266_moved_edge). Exactly the lists with a repeated name have such a position (C266_shadowed_iff). In a Dag, remove_node takes the name out of node_map, the other nodes of that name stay in the list and every later call naming one raises KeyError (C266_dag_remove_refuted)."
  }
 ]
}