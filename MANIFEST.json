{
 "claims": [
  {
   "property": "C01",
   "status": "proved",
   "theorems": [
    "C01_product_pointwise",
    "C01_sum_pointwise"
   ],
   "note": "Also the sum (__add__). For factors without variables both operands are covered."
  },
  {
   "property": "C02",
   "status": "proved",
   "theorems": [
    "C02_product_commutative",
    "C02_product_associative",
    "C02_one_neutral"
   ],
   "note": ""
  },
  {
   "property": "C03",
   "status": "proved",
   "theorems": [
    "C03_marginalize_sums_out",
    "C03_marginalize_any_order",
    "C03_marginalize_unknown"
   ],
   "note": ""
  },
  {
   "property": "C04",
   "status": "partial",
   "theorems": [
    "C04_division_partial",
    "C04_division_scope_error",
    "C04_multiply_then_divide_partial",
    "C04_trivial_zero_refuted"
   ],
   "note": "Holds whenever the divisor has at least one variable or is non-zero; a variable-free divisor 0.0 raises instead of giving 0 (refuted with witness)."
  },
  {
   "property": "C05",
   "status": "proved",
   "theorems": [
    "C05_normalize"
   ],
   "note": ""
  },
  {
   "property": "C06",
   "status": "proved",
   "theorems": [
    "C06_selection",
    "C06_everything",
    "C06_unknown_value"
   ],
   "note": ""
  },
  {
   "property": "C07",
   "status": "partial",
   "theorems": [
    "C07_from_node",
    "C07_utility_factor_partial",
    "C07_joint_factor",
    "C07_fresh_utility_refuted"
   ],
   "note": "from_node: all nodes of reachable networks, all instantiations. Utility nodes: whenever the node has parents or a table. False for a fresh parentless utility node: its factor exists, get_utility raises TypeError."
  },
  {
   "property": "C08",
   "status": "proved",
   "theorems": [
    "C08_hard_evidence",
    "C08_soft_evidence",
    "C08_rejected_evidence"
   ],
   "note": ""
  },
  {
   "property": "C09",
   "status": "proved",
   "theorems": [
    "C09_desired_posterior"
   ],
   "note": "For every tree reachable by any call history from a created junction tree."
  },
  {
   "property": "C10",
   "status": "proved",
   "theorems": [
    "C10_relative_frequencies",
    "C10_unknown_value"
   ],
   "note": ""
  },
  {
   "property": "C11",
   "status": "proved",
   "theorems": [
    "C11_naive_is_posterior"
   ],
   "note": ""
  },
  {
   "property": "C12",
   "status": "proved",
   "theorems": [
    "C12_bucket_is_posterior",
    "C12_bucket_agrees_with_naive",
    "C12_duplicate_query_refuted"
   ],
   "note": "The claim is for duplicate-free queries; the last theorem shows that the restriction is needed."
  },
  {
   "property": "C13",
   "status": "partial",
   "theorems": [
    "C13_naive_distribution",
    "C13_bucket_distribution",
    "C13_tree_distribution_partial",
    "C13_disconnected_refuted"
   ],
   "note": "Both VE algorithms: all networks. FactorTree: whenever the tree is in one piece and the joined names are unambiguous; false for disconnected networks (refuted), see C67."
  },
  {
   "property": "C14",
   "status": "partial",
   "theorems": [
    "C14_min_degree_order_partial",
    "C14_interaction_graph_refuted",
    "C14_random_order"
   ],
   "note": "Permutation and greedy choice hold for the undirected skeleton; false for the interaction graph of the CPTs (the code does not moralise)."
  },
  {
   "property": "C15",
   "status": "partial",
   "theorems": [
    "C15_one_piece",
    "C15_tree_is_posterior_partial",
    "C15_tree_prior_partial",
    "C15_families_answered",
    "C15_polytree",
    "C15_refuted",
    "C15_name_clash_refuted",
    "C15_disconnected_refuted"
   ],
   "note": "Proved for every network and every elimination order whose tree is in one piece (C15_one_piece), if the joined names are unambiguous; in particular for perfect orders of connected networks and for connected polytrees with the default order. False in general: create_jointree adds no fill-in edges, so that the tree may fall apart (wrong marginals, connected network, default order), clusters with equal joined names are merged (query fails), and in a network of two unconnected chains a prior marginal is wrong (C67 says which questions are still answered exactly)."
  },
  {
   "property": "C16",
   "status": "partial",
   "theorems": [
    "C16_one_piece",
    "C16_junction_tree_partial",
    "C16_perfect",
    "C16_single_parent",
    "C16_polytree",
    "C16_refuted"
   ],
   "note": "For every elimination order: the tree is a junction tree exactly when it is in one piece (unambiguous joined names). It is for perfect orders of connected networks, hence for connected polytrees with the default order. Refuted for a connected 5-node network with the default order."
  },
  {
   "property": "C17",
   "status": "partial",
   "theorems": [
    "C17_history_partial",
    "C17_calls_succeed",
    "C17_current_tables_refuted"
   ],
   "note": "Proved for all call histories on junction trees incl. failing calls and changed tables. False: tables changed after the last set_evidence/reset_factors are not seen."
  },
  {
   "property": "C18",
   "status": "partial",
   "theorems": [
    "C18_messages_again_partial",
    "C18_queries_again_partial",
    "C18_any_order_partial",
    "C18_second_pass_raises_refuted",
    "C18_self_loop_refuted"
   ],
   "note": "Proved for every elimination order, every sequence of calls before and every zero pattern: a second pass changes no clique table and no answer. Needs unambiguous joined names (self-loops otherwise, refuted), and the second pass may raise FloatingPointError at an empty separator table of value 0 (refuted); for the junction trees of C16 it never raises."
  },
  {
   "property": "C19",
   "status": "partial",
   "theorems": [
    "C19_rejected_partial",
    "C19_trace_refuted"
   ],
   "note": "False: items before the rejected one stay in the tree. Proved exactly which evidence remains."
  },
  {
   "property": "C20",
   "status": "partial",
   "theorems": [
    "C20_structure_partial",
    "C20_inference_view",
    "C20_duplicate_edge_refuted",
    "C20_readded_node_refuted"
   ],
   "note": "Proved for all histories, incl. failing calls, in which nodes are added without parents, edges are not added twice and nodes are renamed by name to a free name. Refuted without: duplicate edges and re-added nodes break it."
  },
  {
   "property": "C21",
   "status": "partial",
   "theorems": [
    "C21_shapes_partial",
    "C21_set_cpd_accepts_partial",
    "C21_readded_node_refuted"
   ],
   "note": "As C20; refuted for re-added nodes."
  },
  {
   "property": "C22",
   "status": "partial",
   "theorems": [
    "C22_other_nodes_unchanged",
    "C22_edits_local_partial"
   ],
   "note": "Frame property for arbitrary states and edits. Exact effect for reachable networks (contract as C20)."
  },
  {
   "property": "C23",
   "status": "proved",
   "theorems": [
    "C23_rename_preserves"
   ],
   "note": "For all networks reached as in C20 and all fresh names."
  },
  {
   "property": "C24",
   "status": "partial",
   "theorems": [
    "C24_safe_arguments_partial",
    "C24_collision_refuted",
    "C24_by_object_refuted"
   ],
   "note": "False: a name in use loses a node; giving the node object fails half-way. Holds for names that are free."
  },
  {
   "property": "C25",
   "status": "partial",
   "theorems": [
    "C25_valid_flag_partial",
    "C25_utility_parent_refuted"
   ],
   "note": "All histories within the contract of C20; false for parents without values (add_edge fails half-way)."
  },
  {
   "property": "C26",
   "status": "partial",
   "theorems": [
    "C26_set_probability_partial",
    "C26_unknown_values",
    "C26_integer_table_refuted",
    "C26_set_utility_partial",
    "C26_unknown_utility"
   ],
   "note": "All reachable nodes with floating point tables; false for integer tables (values are truncated). The same for set_utility/get_utility."
  },
  {
   "property": "C27",
   "status": "partial",
   "theorems": [
    "C27_roulette_partial",
    "C27_zero_weight_partial",
    "C27_always_a_value",
    "C27_network_view",
    "C27_zero_draw_refuted"
   ],
   "note": "All weights and all r in (0,1). False at r = 0.0: the first value is returned even if its weight is 0."
  },
  {
   "property": "C28",
   "status": "proved",
   "theorems": [
    "C28_weights",
    "C28_gibbs_conditional",
    "C28_positive_column"
   ],
   "note": "All networks built through the API with non-negative tables, all complete states."
  },
  {
   "property": "C29",
   "status": "partial",
   "theorems": [
    "C29_detailed_balance",
    "C29_acceptance",
    "C29_stays_possible_partial",
    "C29_zero_draw_refuted"
   ],
   "note": "Detailed balance for all states, incl. those of probability 0, and the exact acceptance rule. Zero-probability states are never entered if no draw is exactly 0.0; false for r = 0.0."
  },
  {
   "property": "C30",
   "status": "partial",
   "theorems": [
    "C30_chain_partial",
    "C30_no_free_variable_refuted",
    "C30_default_evidence_refuted"
   ],
   "note": "Both transitions, both step modes, all random streams and lengths, if some variable is free or all change per step. False when all variables are evidence (IndexError) and for the default evidence=None (TypeError)."
  },
  {
   "property": "C31",
   "status": "proved",
   "theorems": [
    "C31_sample_legal",
    "C31_box"
   ],
   "note": "All networks, evidence, topological orders and random streams; box for positive draws."
  },
  {
   "property": "C32",
   "status": "partial",
   "theorems": [
    "C32_frequencies_partial",
    "C32_all_evidence_refuted"
   ],
   "note": "All parameters, if some variable is free or all change per step; otherwise IndexError."
  },
  {
   "property": "C33",
   "status": "proved",
   "theorems": [
    "C33_expected_utility",
    "C33_all_decided",
    "C33_normalised"
   ],
   "note": "All reachable decision networks, all (partial) decision assignments, all iteration orders, for non-negative tables with a non-zero normaliser."
  },
  {
   "property": "C34",
   "status": "partial",
   "theorems": [
    "C34_optimal_partial",
    "C34_several_partial",
    "C34_two_decisions_refuted",
    "C34_informed_partial"
   ],
   "note": "Proved when one decision is optimised. False for two or more: each is optimised against evenly mixed others. Decisions with observed parents raise ValueError."
  },
  {
   "property": "C35",
   "status": "partial",
   "theorems": [
    "C35_fixed_value_ignored_partial",
    "C35_fixed_refuted"
   ],
   "note": "False: a fixed decision in the order is optimised again; proved that the fixed value has no influence on it."
  },
  {
   "property": "C36",
   "status": "partial",
   "theorems": [
    "C36_set_decision",
    "C36_fully_mixed",
    "C36_unknown_partial",
    "C36_unknown_refuted"
   ],
   "note": "set_decision and fully_mixed as stated. An unknown decision raises ValueError, but sets the rule to zero first (proved for all nodes, hence the last clause is refuted)."
  },
  {
   "property": "C37",
   "status": "partial",
   "theorems": [
    "C37_time",
    "C37_network",
    "C37_canonical_partial",
    "C37_failed_evidence_refuted"
   ],
   "note": "The time and the answering network are right in every history, exceptions included. Which evidence is used: proved for histories whose calls succeed; refuted when a set_evidence raises after an earlier one succeeded (the next unroll uses part of the failed call's evidence). Calls that raise: what the slices then observe is C75."
  },
  {
   "property": "C38",
   "status": "partial",
   "theorems": [
    "C38_keyword_partial",
    "C38_keyword_refuted",
    "C38_soft_refuted"
   ],
   "note": "set_evidence drops its keyword arguments: the states are equal without soft_posteriors, and with it for hard evidence; refuted for soft evidence and for SoftEvidenceExact."
  },
  {
   "property": "C39",
   "status": "partial",
   "theorems": [
    "C39_filtering_partial",
    "C39_probabilities_partial",
    "C39_one_transition",
    "C39_observed",
    "C39_dependent_refuted",
    "C39_value_order_refuted"
   ],
   "note": "Exact in every session for networks that suit the join tree when the variables taken over are independent given the evidence: always with one transition, and with several when all but one are observed. Refuted for dependent variables and for value lists in different order."
  },
  {
   "property": "C40",
   "status": "partial",
   "theorems": [
    "C40_methods_partial",
    "C40_probabilities_partial",
    "C40_interface_refuted",
    "C40_excluded_refuted"
   ],
   "note": "Agreement in every pair of sessions with the same hard evidence, off the variables taken over and possible; refuted for evidence on a variable taken over and for values the 2-TBN itself excludes."
  },
  {
   "property": "C41",
   "status": "proved",
   "theorems": [
    "C41_network_kept"
   ],
   "note": "All methods, networks and histories, exceptions included."
  },
  {
   "property": "C42",
   "status": "partial",
   "theorems": [
    "C42_add_transition_partial",
    "C42_add_transitions",
    "C42_constructor",
    "C42_exception_refuted",
    "C42_setter_refuted"
   ],
   "note": "Exactly the valid transitions are appended, also by the constructor; one of the three errors is a KeyError instead of StructureError (refuted). The setters of b0 and two_tbn keep transitions whose nodes are gone (refuted)."
  },
  {
   "property": "C43",
   "status": "partial",
   "theorems": [
    "C43_round_trip_partial",
    "C43_exact_partial",
    "C43_queries_partial",
    "C43_write_fails",
    "C43_default_name_refuted",
    "C43_default_flags_refuted",
    "C43_no_values_refuted",
    "C43_empty_value_refuted",
    "C43_control_character_refuted",
    "C43_integer_table_refuted"
   ],
   "note": "All reachable networks whose texts XML can hold, with non-empty names and values, for all flags: same nodes, order, values, parent orders, edges, tables and answers to all queries. Refuted for the default (empty) name, the default flags, nodes without values, empty values, control characters, integer tables."
  },
  {
   "property": "C44",
   "status": "partial",
   "theorems": [
    "C44_round_trip_partial",
    "C44_paths",
    "C44_no_slash_refuted",
    "C44_slash_refuted",
    "C44_half_written_refuted"
   ],
   "note": "All directories given with a final slash (or empty), all names without slash, read from any working directory by any path. Refuted without the final slash and for names with a slash."
  },
  {
   "property": "C45",
   "status": "proved",
   "theorems": [
    "C45_programs",
    "C45_operands",
    "C45_use_other_refuted",
    "C45_get_potential_partial",
    "C45_get_potential_refuted"
   ],
   "note": "All programs of copies, products, sums, quotients, inversions, marginalisations and in-place normalisations over objects with references: refinement of the value model, exceptions included, no sharing. Outside the listed operations: __mul__ with useOther=True (never used) changes its operand, and get_potential() without variables returns the live table (refutations)."
  },
  {
   "property": "C46",
   "status": "partial",
   "theorems": [
    "C46_order_modified_refuted",
    "C46_order_after_call_partial"
   ],
   "note": "False: the caller's order list is reordered in place; the resulting list is characterised. The variables list is only iterated by the code."
  },
  {
   "property": "C47",
   "status": "partial",
   "theorems": [
    "C47_collected_are_last",
    "C47_collected_refuted"
   ],
   "note": "False: the generator yields one dict object; proved that collected samples all equal the last state."
  },
  {
   "property": "C48",
   "status": "partial",
   "theorems": [
    "C48_reading_partial",
    "C48_writing_partial",
    "C48_duplicate_given_refuted",
    "C48_second_definition_refuted",
    "C48_line_break_refuted",
    "C48_table_text"
   ],
   "note": "All documents that define no variable twice and list no GIVEN twice; written documents of all reachable networks that can be written. Refuted for repeated GIVEN and for line breaks in tables."
  },
  {
   "property": "C49",
   "status": "proved",
   "theorems": [
    "C49_stationary"
   ],
   "note": "All networks with non-negative tables, all evidence, both transition models, both step modes, all lengths. Probabilities are exact counts over N equally likely draws per call for all multiples N of a denominator of the network."
  },
  {
   "property": "C50",
   "status": "partial",
   "theorems": [
    "C50_forward",
    "C50_posterior_partial",
    "C50_downstream_refuted"
   ],
   "note": "The distribution of the sample for all evidence; it is the posterior when the parents of observed variables are observed, refuted otherwise."
  },
  {
   "property": "C51",
   "status": "proved",
   "theorems": [
    "C51_unbiased"
   ],
   "note": "All networks with normalised tables; evidence upstream and possible."
  },
  {
   "property": "C52",
   "status": "partial",
   "theorems": [
    "C52_chain_partial",
    "C52_chain_rate_partial",
    "C52_chain_iff",
    "C52_visited",
    "C52_starts",
    "C52_positive",
    "C52_estimate_partial",
    "C52_burn_in_partial",
    "C52_components",
    "C52_component_law",
    "C52_component_connected",
    "C52_component_estimate_partial",
    "C52_zeros_refuted",
    "C52_impossible_start_refuted"
   ],
   "note": "Geometric convergence whenever the possible states are linked by changes of one variable, and (C52_chain_iff) exactly then; a chain visits only states linked to its start. The estimates need in addition that sampling starts in possible states (true for evidence upstream, or if the tables of observed nodes have no zeros). Otherwise refuted: every run reports 0 or 1 where the posterior is 1/2. Without any condition on the linkage, chains approach the posterior among the states linked to their start (C52_component_law), and estimates its mean over the forward samples. Started in an impossible state the Gibbs sampler may stay there for ever (C52_impossible_start_refuted)."
  },
  {
   "property": "C53",
   "status": "partial",
   "theorems": [
    "C53_squared_error_partial",
    "C53_consistent_partial",
    "C53_component_squared_error_partial",
    "C53_standing",
    "C53_zeros_refuted"
   ],
   "note": "For linked possible states and possible starts (in particular tables without zeros), any burn-in, both transition models; refuted for unlinked states: every run is off by more than 1/4; what the runs then approach is the posterior among the states linked to their start, with squared error B/n."
  },
  {
   "property": "C54",
   "status": "partial",
   "theorems": [
    "C54_sizes_partial",
    "C54_positions_partial",
    "C54_names_refuted",
    "C54_one_value_refuted"
   ],
   "note": "Different numbers of values (neither being 1) raise ValueError. Equal numbers: entries are paired by position, so the claim is false for other orders and names; false also for one-value lists. The result for every combination of sizes is C76_stretched."
  },
  {
   "property": "C55",
   "status": "proved",
   "theorems": [
    "C55_indicator",
    "C55_indicator_posterior",
    "C55_scale",
    "C55_scale_tree",
    "C55_vacuous",
    "C55_vacuous_tree",
    "C55_zero_scale_differs"
   ],
   "note": "Named values and indicators: all networks, literally equal results including exceptions (join tree: any tree; with soft posteriors, trees with any history). Scaling and equal weights: all well-formed networks with non-negative tables. Scaling by zero is shown to differ."
  },
  {
   "property": "C56",
   "status": "proved",
   "theorems": [
    "C56_names",
    "C56_get_node",
    "C56_get_nodes",
    "C56_get_children",
    "C56_one_order"
   ],
   "note": "All worlds reached within the contract of C20."
  },
  {
   "property": "C57",
   "status": "partial",
   "theorems": [
    "C57_clear",
    "C57_name_refuted",
    "C57_nodes_keep_parents_refuted"
   ],
   "note": "Nodes and edges are removed (all worlds). Name and properties stay although the doc string says otherwise, and nodes keep their parents: added again they make the network inconsistent."
  },
  {
   "property": "C58",
   "status": "proved",
   "theorems": [
    "C58_yields",
    "C58_ends",
    "C58_topological",
    "C58_sample",
    "C58_cyclic",
    "C58_marginals"
   ],
   "note": "networkx's generator is modelled (networkx 2.0-2.3) and proved to yield exactly the nodes no cycle leads to, for all graphs."
  },
  {
   "property": "C59",
   "status": "partial",
   "theorems": [
    "C59_other_calls",
    "C59_add_edge",
    "C59_cycle_accepted_refuted",
    "C59_sampling_fails_refuted"
   ],
   "note": "All calls except add_edge keep networks acyclic; add_edge does exactly when there is no path back. It closes cycles without an exception, after which sampling raises."
  },
  {
   "property": "C60",
   "status": "proved",
   "theorems": [
    "C60_posterior",
    "C60_naive",
    "C60_bucket",
    "C60_tree_partial",
    "C60_remove_leaf",
    "C60_unset_table_refuted"
   ],
   "note": "Variable elimination: all networks and sets; join trees of the smaller network where C15 applies. The proviso is needed: a new node whose table was never set makes every answer zero (refuted)."
  },
  {
   "property": "C61",
   "status": "partial",
   "theorems": [
    "C61_trails",
    "C61_separation",
    "C61_naive",
    "C61_bucket",
    "C61_tree_partial"
   ],
   "note": "Proved for the posterior and for both forms of variable elimination; for join trees where C15 applies. C61_trails needs neither acyclicity nor normalised tables."
  },
  {
   "property": "C62",
   "status": "proved",
   "theorems": [
    "C62_row",
    "C62_naive",
    "C62_bucket"
   ],
   "note": "All acyclic networks with normalised tables."
  },
  {
   "property": "C63",
   "status": "partial",
   "theorems": [
    "C63_draw_total",
    "C63_weights",
    "C63_small_weights_refuted"
   ],
   "note": "All but the last sentence proved, for every rounding. The last is false in doubles: a weight of 2^-60 after a weight of 1 is never drawn."
  },
  {
   "property": "C64",
   "status": "proved",
   "theorems": [
    "C64_same_program",
    "C64_naive",
    "C64_bucket",
    "C64_zeros",
    "C64_absolute",
    "C64_bucket_absolute",
    "C64_agree",
    "C64_tables",
    "C64_sum_one_refuted",
    "C64_same_answer_refuted",
    "C64_order_of_adding_refuted"
   ],
   "note": "For every rounding and order of addition, without overflow and underflow; bucket elimination for queries no longer than the elimination order. C64_tables also counts errors made when tables were read. Exact statements are false in doubles: answers need not sum to 1, the two forms need not agree, the order of addition matters (refuted)."
  },
  {
   "property": "C65",
   "status": "partial",
   "theorems": [
    "C65_same_program",
    "C65_same_operations",
    "C65_tree",
    "C65_fresh",
    "C65_size",
    "C65_zeros",
    "C65_absolute",
    "C65_agree",
    "C65_again_refuted"
   ],
   "note": "All but the last sentence proved, under the conditions of C15 on the network (suits), without overflow and underflow. The last sentence, true in exact arithmetic (C18_messages_again_partial), is false in doubles."
  },
  {
   "property": "C66",
   "status": "proved",
   "theorems": [
    "C66_same_program",
    "C66_naive",
    "C66_sums",
    "C66_tables",
    "C66_hub_first",
    "C66_perfect",
    "C66_forest",
    "C66_default"
   ],
   "note": "All networks. Tables are recorded by a copy of the functions that is proved to return the same (C66_same_program); arrays inside a single factor operation are not recorded."
  },
  {
   "property": "C67",
   "status": "proved",
   "theorems": [
    "C67_parts",
    "C67_component",
    "C67_joined",
    "C67_polytree",
    "C67_elsewhere",
    "C67_posterior"
   ],
   "note": "For every part of the tree that is in one piece, which it is for perfect orders (C67_joined); softPosteriors=False."
  },
  {
   "property": "C68",
   "status": "partial",
   "theorems": [
    "C68_same_program",
    "C68_naive",
    "C68_bucket",
    "C68_zeros",
    "C68_underflow_refuted",
    "C68_certain_refuted"
   ],
   "note": "All but the last sentence proved. The last is false in doubles: two observations of probability 2^-600 make every answer 0, and two of probability 2^-537 make an answer 1 that should be 3/4. Join trees: C80."
  },
  {
   "property": "C69",
   "status": "partial",
   "theorems": [
    "C69_same_program",
    "C69_within",
    "C69_over",
    "C69_error",
    "C69_chain_refuted",
    "C69_chain_perfect_refuted"
   ],
   "note": "All but the last sentence proved. The last is false: for every limit, a chain of 4*limit+2 nodes has a join tree that is too deep, whatever order makes it; 2*limit+2 nodes are too many for the default order and every other order that needs no fill-in. The limit counts nested calls of pull_messages or push_messages, not all Python frames."
  },
  {
   "property": "C70",
   "status": "partial",
   "theorems": [
    "C70_calls",
    "C70_reads",
    "C70_wrong_class",
    "C70_decision_calls",
    "C70_get_utility",
    "C70_naive",
    "C70_bucket",
    "C70_names_refuted",
    "C70_soft_posterior",
    "C70_short_posterior",
    "C70_nothing"
   ],
   "note": "All but the last sentence proved; the last is false: naive_marginals ignores names that are not in the network, bucket_marginals raises ValueError (refuted). set_decision has cleared the table when it raises (C36)."
  },
  {
   "property": "C71",
   "status": "proved",
   "theorems": [
    "C71_document",
    "C71_network_file",
    "C71_specification",
    "C71_write_network",
    "C71_write_specification"
   ],
   "note": "Documents are trees of elements (the XML and JSON concrete syntax is not modelled; a file of the wrong kind raises)."
  },
  {
   "property": "C72",
   "status": "proved",
   "theorems": [
    "C72_create",
    "C72_marginals",
    "C72_set_evidence"
   ],
   "note": "marginals and set_evidence: trees in one piece (suits, see C16_one_piece). NonFinite stands for a division by zero that numpy answers with inf or nan."
  },
  {
   "property": "C73",
   "status": "proved",
   "theorems": [
    "C73_streamed",
    "C73_get_sample",
    "C73_get_sample_state",
    "C73_chain",
    "C73_chain_default",
    "C73_marginals"
   ],
   "note": "Evidence values that a variable does not have; NonFinite stands for 0/0 in from_samples (no samples)."
  },
  {
   "property": "C74",
   "status": "proved",
   "theorems": [
    "C74_left",
    "C74_all",
    "C74_answers",
    "C74_refuses"
   ],
   "note": "Trees in one piece (suits, see C16_one_piece). After a call that raises the caller still holds the tree; reading set_evidence's argument as likelihoods is LeftSpec.read_as."
  },
  {
   "property": "C75",
   "status": "proved",
   "theorems": [
    "C75_every_sequence",
    "C75_time",
    "C75_set_evidence",
    "C75_unroll",
    "C75_nothing",
    "C75_marginals",
    "C75_filtering"
   ],
   "note": "Networks as in C39 (trackable); the exact reading of evidence as likelihoods is LeftSpec.leaves, the network of a slice DynUseSpec.read_net."
  },
  {
   "property": "C76",
   "status": "proved",
   "theorems": [
    "C76_product_sum",
    "C76_stretched",
    "C76_division",
    "C76_invert",
    "C76_marginalize",
    "C76_select",
    "C76_constant",
    "C76_evidence",
    "C76_samples"
   ],
   "note": "as_evidence with a desired posterior: C70_soft_posterior. NonFinite stands for 0/0 in from_samples."
  },
  {
   "property": "C77",
   "status": "proved",
   "theorems": [
    "C77_expected_utility",
    "C77_utility_answer",
    "C77_optimal",
    "C77_optimal_answer",
    "C77_changes"
   ],
   "note": "Tables of probabilities are assumed to have no negative numbers (those of the decisions to be set or optimised excepted)."
  },
  {
   "property": "C78",
   "status": "proved",
   "theorems": [
    "C78_same_program",
    "C78_succeeds",
    "C78_answers",
    "C78_filtering",
    "C78_linear",
    "C78_zeros",
    "C78_absolute",
    "C78_exact_refuted"
   ],
   "note": "Networks as in C39 (trackable), evidence as likelihoods (soft_posteriors not given or False). The program is that of C39 by C78_same_program; no overflow or underflow. C78_exact_refuted: in doubles the answers do differ from the exact ones. With m transitions the bound multiplies by m per slice."
  },
  {
   "property": "C79",
   "status": "proved",
   "theorems": [
    "C79_same_program",
    "C79_expected_utility",
    "C79_nonneg",
    "C79_optimal",
    "C79_clear",
    "C79_prepared",
    "C79_several",
    "C79_fully_mixed",
    "C79_double_symmetric",
    "C79_best_refuted"
   ],
   "note": "The programs are those of C33 and C34 by C79_same_program; no overflow or underflow. Decisions without observed parents (with them get_optimal_decisions raises, C34_informed_partial). C79_best_refuted: in doubles the reported decision need not be the best."
  },
  {
   "property": "C80",
   "status": "proved",
   "theorems": [
    "C80_same_program",
    "C80_tree",
    "C80_size",
    "C80_fresh",
    "C80_zeros",
    "C80_reciprocal_refuted"
   ],
   "note": "The program is that of C65 with other roundings (C80_same_program); evidence with softPosteriors=False. Results outside the range are arbitrary, except for infinite reciprocals in the instance ieee_inv (doubles), which become 0 as in factor.py:278. C80_reciprocal_refuted: without the condition the tree can be wrong where variable elimination is right."
  },
  {
   "property": "C81",
   "status": "proved",
   "theorems": [
    "C81_same_program",
    "C81_meaning",
    "C81_tree",
    "C81_desired",
    "C81_zeros",
    "C81_absolute",
    "C81_afterwards",
    "C81_size",
    "C81_exact_refuted"
   ],
   "note": "The program is that of C09 and C16 by C81_same_program; no overflow or underflow. C81_exact_refuted: in doubles the desired posterior need not be hit exactly."
  },
  {
   "property": "C82",
   "status": "proved",
   "theorems": [
    "C82_same_program",
    "C82_succeeds",
    "C82_answers",
    "C82_filtering",
    "C82_linear",
    "C82_zeros",
    "C82_absolute",
    "C82_own_priors",
    "C82_rounded_tables",
    "C82_exact_refuted"
   ],
   "note": "Networks as in C39 (trackable), evidence as in C40 (soft_ok: hard, possible, off the variables taken over, values not excluded by the 2-TBN). The program is that of C40 by C82_same_program; no overflow or underflow. C82_exact_refuted: in doubles the answers do differ from the exact ones. With m transitions the bound multiplies by m per slice."
  },
  {
   "property": "C83",
   "status": "proved",
   "theorems": [
    "C83_same_program",
    "C83_chain_same",
    "C83_sample_same",
    "C83_differ",
    "C83_chain",
    "C83_sample",
    "C83_frequencies",
    "C83_counts",
    "C83_posterior",
    "C83_estimate",
    "C83_size",
    "C83_limit",
    "C83_squared_error",
    "C83_consistent",
    "C83_same_refuted"
   ],
   "note": "Generators as in C49-C53 (N equally likely numbers; for the distance from the posterior N a multiple of a denominator of the network). The program is that of C27-C32 by C83_same_program; no overflow or underflow. C83_posterior, C83_estimate, C83_squared_error and C83_consistent need the linked states of C52. C83_same_refuted: single runs in doubles do differ from exact ones."
  },
  {
   "property": "C84",
   "status": "proved",
   "theorems": [
    "C84_same_program",
    "C84_sample",
    "C84_chain",
    "C84_marginals",
    "C84_grain",
    "C84_chain_same",
    "C84_possible",
    "C84_posterior",
    "C84_consistent",
    "C84_range_refuted"
   ],
   "note": "The program is that of C83 by C84_same_program with the rounding replaced; what results outside the range become is left open. C84_range_refuted: without room the chains in IEEE doubles (gradual underflow) go to impossible states."
  },
  {
   "property": "C85",
   "status": "proved",
   "theorems": [
    "C85_limit",
    "C85_create",
    "C85_reset",
    "C85_evidence",
    "C85_messages",
    "C85_query",
    "C85_stored",
    "C85_default",
    "C85_perfect",
    "C85_less_refuted"
   ],
   "note": "The limit is for each product, sum over a variable and inverse; factors read from nodes and evidence are not counted. The program is that of C15-C19 by C65_same_program and C81_same_program. C85_less_refuted: a limit one below the bound makes calls fail."
  },
  {
   "property": "C86",
   "status": "proved",
   "theorems": [
    "C86_history",
    "C86_call",
    "C86_query",
    "C86_kept",
    "C86_polytree",
    "C86_less_refuted"
   ],
   "note": "The limit is for each product, sum over a variable and inverse, as in C85. Equality with the functions of C37-C42. C86_less_refuted: a limit one below the bound makes calls fail."
  },
  {
   "property": "C87",
   "status": "proved",
   "theorems": [
    "C87_document",
    "C87_file",
    "C87_second",
    "C87_load_save",
    "C87_dynamic",
    "C87_default_flags_refuted",
    "C87_default_name_refuted",
    "C87_integers_refuted",
    "C87_no_outcomes_refuted"
   ],
   "note": "the first saving is exact for named networks with tables of floats; the refutations show what changes otherwise"
  },
  {
   "property": "C88",
   "status": "partial",
   "theorems": [
    "C88_posterior",
    "C88_naive",
    "C88_bucket",
    "C88_tree_partial",
    "C88_api",
    "C88_sampling",
    "C88_positions_refuted",
    "C88_tree_default_refuted"
   ],
   "note": "proved for both kinds of variable elimination, forward sampling and join trees in one piece; C88_tree_default_refuted shows that the join tree of the default order does depend on the order in which nodes were added (the tree of loop5 falls apart, C16)"
  },
  {
   "property": "C89",
   "status": "proved",
   "theorems": [
    "C89_marginal",
    "C89_chain",
    "C89_total",
    "C89_bayes",
    "C89_observed",
    "C89_impossible_refuted"
   ],
   "note": "join trees in one piece (C16 for the others); under impossible evidence every answer is 0 (C89_impossible_refuted), which is why C89_observed asks for possible evidence"
  },
  {
   "property": "C90",
   "status": "proved",
   "theorems": [
    "C90_between",
    "C90_reported",
    "C90_units",
    "C90_units_optimal",
    "C90_no_mixture",
    "C90_sign_refuted"
   ],
   "note": "decisions without observed parents (with them get_optimal_decisions raises, C34_informed_partial); C90_reported states for several decisions what C34_several_partial says, without reference to the program; C90_sign_refuted: with a < 0 the decision does change"
  },
  {
   "property": "C91",
   "status": "proved",
   "theorems": [
    "C91_own",
    "C91_abstract",
    "C91_frequencies",
    "C91_stationary",
    "C91_package",
    "C91_sequence",
    "C91_mixture",
    "C91_balanced",
    "C91_evidence_refuted",
    "C91_peeking_refuted",
    "C91_biased_refuted",
    "C91_unbiased",
    "C91_values",
    "C91_keys_refuted",
    "C91_downstream_refuted",
    "C91_limit_chain",
    "C91_limit_estimates",
    "C91_limit_refuted"
   ],
   "note": "any step as a function of the draws, the network, the variables, fullChange and the state; steps that change the network are not modelled, those that keep a state of their own are C93; C91_stationary asks for a fixed number of draws per step (C91_mixture for the same number in both); C91_evidence_refuted: without the condition that steps keep the evidence the claim is false; C91_unbiased is about upstream evidence and draws from a grid fine enough for the tables, as C51; C91_keys_refuted: without reads_values it is false, and without upstream evidence (C91_downstream_refuted); C91_limit_* ask that one step can reach every state, C91_limit_refuted: without it a chain may never settle"
  },
  {
   "property": "C92",
   "status": "proved",
   "theorems": [
    "C92_near",
    "C92_odds",
    "C92_zero",
    "C92_scale",
    "C92_evidence",
    "C92_evidence_scale",
    "C92_absolute_refuted"
   ],
   "note": "join trees in one piece; exact arithmetic (C64 for rounded); C92_absolute_refuted: with differences instead of factors the claim is false"
  },
  {
   "property": "C93",
   "status": "proved",
   "theorems": [
    "C93_frequencies",
    "C93_history",
    "C93_independent",
    "C93_independent_refuted",
    "C93_adaptive_refuted"
   ],
   "note": "memory of any type M, handed from step to step and from call to call; steps that change the network are not modelled; the two refutations are the last sentence"
  }
 ]
}