{"id": "C01", "title": "Factor product is the pointwise product", "statement": "For two factors whose shared variables have the same value lists, f*g is a factor over exactly the union of the variables, and its potential for every complete instantiation is the product of the two operands' potentials for that instantiation.", "quantifier": "all factors f, g of any number of variables and values, all instantiations, all set-iteration orders (hash seeds)", "why_tests_cant": "Axis alignment goes through Python set iteration (hash-seed dependent), newaxis insertion and a transpose; tests fix one small shape and one hash seed.", "anchors": ["primo2/inference/factor.py:Factor.__mul__"]}
{"id": "C02", "title": "Factor product is commutative and associative as a function", "statement": "f*g and g*f (and (f*g)*h and f*(g*h)) assign the same potential to every complete instantiation, although their variable order may differ; a trivial factor 1.0 is neutral on both sides.", "quantifier": "all factors with agreeing value lists, all instantiations, all set-iteration orders", "why_tests_cant": "The docstring warns that the operation is NOT commutative; the test suite has the commutativity checks commented out as TODO (HARD!).", "anchors": ["primo2/inference/factor.py:Factor.__mul__", "primo2/inference/factor.py:Factor.get_trivial"]}
{"id": "C03", "title": "marginalize sums out exactly the given variables", "statement": "marginalize(vars) returns a factor over the remaining variables in their old order, whose potential for an instantiation is the sum of the original potentials over all values of the removed variables; the order in which the variables are given (or iterated, for a set) does not matter; a variable that is not in the factor raises ValueError.", "quantifier": "all factors, all lists/sets of variables, all instantiations", "why_tests_cant": "A sum over all extensions for tables of every rank, and every iteration order of a set argument.", "anchors": ["primo2/inference/factor.py:Factor.marginalize"]}
{"id": "C04", "title": "Factor division and inversion", "statement": "f/g, for g's variables a subset of f's, has potential f(x)/g(x) wherever g(x) is nonzero and 0 wherever g(x)=0 ('forcing 1/0=0'); otherwise ValueError is raised; (f*g)/g gives back f wherever g is nonzero.", "quantifier": "all factors, including trivial (variable-free) ones, all instantiations", "why_tests_cant": "The zero convention has two code paths (trivial and non trivial factors), and only a universally quantified statement covers both on every zero pattern.", "anchors": ["primo2/inference/factor.py:Factor.__truediv__", "primo2/inference/factor.py:Factor.invert"]}
{"id": "C05", "title": "normalize", "statement": "After normalize() the potentials sum to 1 if their sum was positive, keep their pairwise ratios, and are untouched otherwise.", "quantifier": "all factors", "why_tests_cant": "Holds for every table of every rank, including all-zero tables.", "anchors": ["primo2/inference/factor.py:Factor.normalize"]}
{"id": "C06", "title": "get_potential selects by name and value", "statement": "get_potential({v:[values...]}) returns exactly the sub-table for the listed values in the listed order (all values for variables that are not listed), ignores variables that are not in the factor, raises ValueError for an unknown value, and without argument returns the whole table.", "quantifier": "all factors, all selections", "why_tests_cant": "Quantifies over every combination of listed and unlisted variables and values.", "anchors": ["primo2/inference/factor.py:Factor.get_potential"]}
{"id": "C07", "title": "Factors of nodes mirror the CPTs", "statement": "Factor.from_node(n) is over n followed by its parents in parent order, and its potential at an instantiation is what n.get_probability reports for that value and those parent values; from_utility_node does the same for get_utility; joint_factor pairs it with an all-zero (all-one) factor over the same variables.", "quantifier": "all nodes reachable through the network API, all instantiations", "why_tests_cant": "Tests check one or two nodes; the claim ranges over every structure and value naming.", "anchors": ["primo2/inference/factor.py:Factor.from_node", "primo2/inference/factor.py:Factor.from_utility_node", "primo2/inference/factor.py:Factor.joint_factor", "primo2/nodes.py:DiscreteNode.get_probability"]}
{"id": "C08", "title": "Evidence factors", "statement": "as_evidence(v, values, x) is 1 exactly at the observed value and 0 elsewhere; with an array it is that array as a likelihood; an unknown value or an array of the wrong length raises ValueError.", "quantifier": "all variables, value lists and evidence", "why_tests_cant": "All value lists and all arrays.", "anchors": ["primo2/inference/factor.py:Factor.as_evidence"]}
{"id": "C09", "title": "Soft evidence as desired posterior", "statement": "After FactorTree.set_evidence({e: q}, softPosteriors=True), with q a distribution that is zero wherever the prior of e is zero, marginals([e]) is exactly q.", "quantifier": "all networks the join tree is exact for, all variables e, all target distributions q supported by the prior of e", "why_tests_cant": "The likelihood ratio is built relative to the argmax of q with special cases for zero priors; a test can only sample target distributions.", "anchors": ["primo2/inference/factor.py:Factor.as_evidence", "primo2/inference/exact.py:FactorTree.set_evidence"]}
{"id": "C10", "title": "Factor.from_samples gives relative frequencies", "statement": "The potential of every instantiation is (number of samples that agree with it)/(number of samples), and the potentials sum to 1; a sample value outside the value list raises ValueError.", "quantifier": "all sample lists, all variable sets", "why_tests_cant": "Quantifies over all sample sequences.", "anchors": ["primo2/inference/factor.py:Factor.from_samples"]}
{"id": "C11", "title": "naive_marginals is the posterior by definition", "statement": "naive_marginals(bn, Q, ev) returns a factor over Q whose potential at each instantiation q of Q is the sum over all joint instantiations agreeing with q of product of CPT entries times the evidence weights, divided by the same sum over all instantiations (0 if that sum is 0).", "quantifier": "all networks reachable through the API with complete tables, all query sets, all hard and soft evidence, all hash seeds", "why_tests_cant": "The claim is about every network size and topology.", "anchors": ["primo2/inference/exact.py:VariableElimination.naive_marginals"]}
{"id": "C12", "title": "bucket_marginals equals the posterior for every elimination order", "statement": "For every complete elimination order (given or computed) and all duplicate-free queries, bucket_marginals returns the same potentials as naive_marginals for every instantiation of the query variables, and never fails.", "quantifier": "all networks, query sets, evidence, all elimination orders, all hash seeds", "why_tests_cant": "Factorially many orders per network; factor placement depends on the order and on hash order.", "anchors": ["primo2/inference/exact.py:VariableElimination.bucket_marginals"]}
{"id": "C13", "title": "Posterior results are probability distributions", "statement": "Results of naive_marginals, bucket_marginals and FactorTree.marginals have non-negative potentials that sum to 1 if the evidence has positive probability, and are all zero if it has probability zero.", "quantifier": "all networks with non-negative tables, all evidence", "why_tests_cant": "Quantifies over all networks and evidence, incl. impossible evidence.", "anchors": ["primo2/inference/exact.py:VariableElimination", "primo2/inference/exact.py:FactorTree.marginals", "primo2/inference/factor.py:Factor.normalize"]}
{"id": "C14", "title": "Elimination orders are permutations chosen greedily by degree", "statement": "get_min_degree_order returns each node name exactly once, and each chosen variable has minimal degree in the current graph, where eliminating a variable connects its neighbours (interaction graph of the CPTs).", "quantifier": "all networks", "why_tests_cant": "All graphs; the greedy invariant is about every step.", "anchors": ["primo2/inference/order.py:Orderer.get_min_degree_order", "primo2/inference/order.py:Orderer.get_random_order"]}
{"id": "C15", "title": "FactorTree marginals are exact", "statement": "FactorTree.create_jointree(bn).marginals(Q), after any set_evidence, equals the posterior (as naive_marginals computes it) for every Q contained in a clique.", "quantifier": "all networks, orders, evidence and queries", "why_tests_cant": "Depends on the elimination order, the topology of the moral graph and on message passing over trees of any shape.", "anchors": ["primo2/inference/exact.py:FactorTree"]}
{"id": "C16", "title": "create_jointree builds a junction tree", "statement": "The clusters cover every family (node with its parents), the tree is connected and acyclic, and for every variable the cliques containing it form a connected subtree (running intersection).", "quantifier": "all networks and elimination orders", "why_tests_cant": "A structural invariant over all graphs.", "anchors": ["primo2/inference/exact.py:FactorTree.create_jointree"]}
{"id": "C17", "title": "Evidence in a FactorTree is replaced, not accumulated", "statement": "After any history of set_evidence / marginals / reset_factors calls, marginals reflect only the evidence of the last successful set_evidence (none after reset_factors), and the current tables of the network.", "quantifier": "all call histories", "why_tests_cant": "Unbounded call histories; Hugin updates are destructive.", "anchors": ["primo2/inference/exact.py:FactorTree.set_evidence", "primo2/inference/exact.py:FactorTree.reset_factors", "primo2/inference/exact.py:FactorTree.calculate_messages"]}
{"id": "C18", "title": "Message passing is idempotent", "statement": "Calling calculate_messages again on a calibrated tree changes no clique potential, so repeated marginals queries return equal results.", "quantifier": "all trees, all potentials incl. zeros", "why_tests_cant": "Relies on 0/0=0 in the separator division for every zero pattern.", "anchors": ["primo2/inference/exact.py:FactorTree.calculate_messages", "primo2/inference/exact.py:FactorTree.pull_messages", "primo2/inference/exact.py:FactorTree.push_messages"]}
{"id": "C19", "title": "Failed set_evidence leaves no trace", "statement": "If set_evidence raises (unknown value or wrong array length), later marginals do not reflect any of the rejected evidence.", "quantifier": "all networks and evidence dicts, all failure points", "why_tests_cant": "Exceptions may strike at any element of the evidence dict.", "anchors": ["primo2/inference/exact.py:FactorTree.set_evidence"]}
{"id": "C20", "title": "Network structure invariants", "statement": "After any sequence of add_node/add_edge/remove_edge/remove_node/change_node_values/change_node_name/clear the node lookup, the graph and the nodes' parent lists agree: each node is found under its name, u is in the parent order of v exactly once iff the graph has the edge u->v, and the graph has no other nodes.", "quantifier": "all operation histories (including failing operations)", "why_tests_cant": "State-machine invariant over unbounded histories.", "anchors": ["primo2/networks.py:BayesianNetwork"]}
{"id": "C21", "title": "CPT shapes always fit the structure", "statement": "After any such history the table of each discrete node has one axis for the node's values and one for each parent in parent order, of matching sizes; set_cpd accepts exactly the tables of that shape.", "quantifier": "all operation histories", "why_tests_cant": "State-machine invariant; change_node_values must also resize the children.", "anchors": ["primo2/nodes.py:DiscreteNode._update_dimensions", "primo2/nodes.py:DiscreteNode.set_cpd", "primo2/networks.py:BayesianNetwork.change_node_values"]}
{"id": "C22", "title": "Structural edits only touch the node concerned", "statement": "add_edge/remove_edge/change_node_values/remove_node reset (to zero, valid=False) exactly the tables of the affected nodes and leave all other nodes' tables, values and parents unchanged.", "quantifier": "all network states and operations", "why_tests_cant": "Frame property: says what must not change, for every state.", "anchors": ["primo2/networks.py:BayesianNetwork", "primo2/nodes.py:DiscreteNode"]}
{"id": "C23", "title": "Renaming a node preserves the distribution", "statement": "change_node_name(old,new) to an unused name keeps all tables, values, edges and parent orders (with the name replaced), so all joint probabilities are unchanged up to the renaming.", "quantifier": "all networks, all fresh names", "why_tests_cant": "All networks and all inference queries.", "anchors": ["primo2/networks.py:BayesianNetwork.change_node_name"]}
{"id": "C24", "title": "Renaming rejects or tolerates every argument safely", "statement": "change_node_name never loses a node: whatever new name is given, and whether the node is given by name or as object, the network keeps its number of nodes and stays consistent.", "quantifier": "all networks and arguments", "why_tests_cant": "Name collisions and object arguments are corner cases of an unbounded argument space.", "anchors": ["primo2/networks.py:BayesianNetwork.change_node_name"]}
{"id": "C25", "title": "The valid flag tells whether the table was set for the current structure", "statement": "node.valid is True exactly if set_cpd succeeded on that node after the last change of its structure (its values, parents, or a parent's values via the network).", "quantifier": "all histories", "why_tests_cant": "A history property.", "anchors": ["primo2/nodes.py:DiscreteNode", "primo2/networks.py:BayesianNetwork.change_node_values"]}
{"id": "C26", "title": "set_probability writes exactly the matching entries", "statement": "set_probability(x,p,pv) sets the entries for value x and all parent instantiations consistent with pv to p and leaves every other entry as it was; get_probability afterwards returns p for those; unknown values raise ValueError and change nothing.", "quantifier": "all nodes, values, partial parent assignments, probabilities", "why_tests_cant": "Quantifies over all partial assignments; also numpy keeps the dtype of the stored table.", "anchors": ["primo2/nodes.py:DiscreteNode.set_probability", "primo2/nodes.py:DiscreteNode.get_probability", "primo2/nodes.py:UtilityNode.set_utility"]}
{"id": "C27", "title": "sample_value draws from the stated distribution", "statement": "For a uniform random number r, sample_value returns the i-th value exactly when r*W lies in (W_{i-1}, W_i] of the cumulative weights, so value i has probability w_i/W; a value of weight zero is never returned.", "quantifier": "all weights vectors and all random numbers r in [0,1)", "why_tests_cant": "All real-valued random numbers including the boundary 0.0, which a test will not hit.", "anchors": ["primo2/nodes.py:DiscreteNode.sample_value"]}
{"id": "C28", "title": "Gibbs weights are the full conditional", "statement": "The weight that get_markov_prob gives to an outcome of a node is, up to a factor that does not depend on the outcome, the joint probability of the state with that outcome.", "quantifier": "all acyclic networks, nodes, states", "why_tests_cant": "All networks, all states.", "anchors": ["primo2/nodes.py:DiscreteNode.get_markov_prob", "primo2/inference/mcmc.py:GibbsTransition.step"]}
{"id": "C29", "title": "Metropolis-Hastings satisfies detailed balance", "statement": "For two states x, y differing in one variable, joint(x)*accept(x->y) = joint(y)*accept(y->x) for positive probability states; a state of probability zero is never entered from a state of positive probability.", "quantifier": "all networks, states and random numbers", "why_tests_cant": "Quantifies over all states and random numbers.", "anchors": ["primo2/inference/mcmc.py:MetropolisHastingsTransition.step"]}
{"id": "C30", "title": "Markov chains keep evidence fixed and stay in the domain", "statement": "Every state generate_markov_chain yields gives each evidence variable its evidence value and every other variable one of its own values; exactly numSamples states are yielded after burnIn steps; works for every evidence set.", "quantifier": "all networks, evidence, chain lengths, random streams, both transition models and both step modes", "why_tests_cant": "Unbounded chains and all random streams.", "anchors": ["primo2/inference/mcmc.py:MarkovChainSampler.generate_markov_chain", "primo2/inference/mcmc.py:GibbsTransition.step", "primo2/inference/mcmc.py:MetropolisHastingsTransition.step"]}
{"id": "C31", "title": "Forward samples follow the network distribution", "statement": "get_sample(evidence) returns evidence unchanged and a legal value for every other node, and the set of random vectors leading to a sample x is a box whose volume is the product of x's CPT entries (of the non-evidence nodes).", "quantifier": "all acyclic networks, evidence, random streams", "why_tests_cant": "A measure statement over all random vectors.", "anchors": ["primo2/networks.py:BayesianNetwork.get_sample", "primo2/nodes.py:DiscreteNode.sample_value"]}
{"id": "C32", "title": "MCMC marginals are normalised frequencies of the chain", "statement": "MCMC.marginals returns a factor over the query variables whose potentials are the relative frequencies along the generated chain; they are non-negative and sum to 1 for numSamples>0.", "quantifier": "all networks, evidence, random streams, parameters", "why_tests_cant": "All random streams.", "anchors": ["primo2/inference/mcmc.py:MCMC.marginals", "primo2/inference/factor.py:Factor.from_samples"]}
{"id": "C33", "title": "expected_utility is the expectation of the summed utilities", "statement": "expected_utility(decisions) equals the sum over all joint instantiations of (product of all chance and decision tables) times (sum of all utilities), divided by the sum of the products; it does not depend on the (address based) set iteration order.", "quantifier": "all decision networks, decision assignments, all set orders", "why_tests_cant": "Sets of objects are iterated in address order, which no test controls; all networks.", "anchors": ["primo2/inference/decision.py:VariableElimination.expected_utility", "primo2/inference/decision.py:VariableElimination.generalized_VE"]}
{"id": "C34", "title": "get_optimal_decisions maximises expected utility", "statement": "The returned decisions maximise expected_utility among all joint decisions.", "quantifier": "all decision networks (decisions without information parents)", "why_tests_cant": "All utility tables.", "anchors": ["primo2/inference/decision.py:VariableElimination.get_optimal_decisions", "primo2/inference/decision.py:VariableElimination._optimize_locally"]}
{"id": "C35", "title": "fixedDecisions are respected", "statement": "get_optimal_decisions(order, fixed) returns the fixed value for each fixed decision.", "quantifier": "all decision networks and fixed assignments", "why_tests_cant": "All utility tables, incl. negative utilities.", "anchors": ["primo2/inference/decision.py:VariableElimination.get_optimal_decisions"]}
{"id": "C36", "title": "set_decision makes the rule deterministic, or fails without effect", "statement": "set_decision(d) makes the rule 1 at d and 0 elsewhere for every parent instantiation; fully_mixed makes it uniform; an unknown decision raises ValueError and leaves the rule as it was.", "quantifier": "all decision nodes and values", "why_tests_cant": "All shapes; failure atomicity.", "anchors": ["primo2/nodes.py:DecisionNode.set_decision", "primo2/nodes.py:DecisionNode.fully_mixed"]}
{"id": "C37", "title": "DBN unrolling state machine", "statement": "After n calls of unroll, t is n; slice 0 is answered by B0 and every later slice by the 2-TBN; evidence given by set_evidence is used by the following unroll unless it gets evidence itself, and is not used again later.", "quantifier": "all call histories of set_evidence and unroll", "why_tests_cant": "Unbounded histories.", "anchors": ["primo2/inference/dynamic.py:DBNInferenceMethod.set_evidence", "primo2/inference/dynamic.py:DBNInferenceMethod.unroll", "primo2/inference/dynamic.py:PriorFeedbackExact._set_evidence", "primo2/inference/dynamic.py:SoftEvidenceExact._set_evidence"]}
{"id": "C38", "title": "set_evidence and unroll interpret evidence alike", "statement": "Calling set_evidence(ev, soft_posteriors=True) and then unroll() gives the same marginals as unroll(ev, soft_posteriors=True).", "quantifier": "all networks and evidence", "why_tests_cant": "Quantifies over all evidence; keyword arguments may be lost.", "anchors": ["primo2/inference/dynamic.py:DBNInferenceMethod.set_evidence"]}
{"id": "C39", "title": "Prior feedback filtering is exact", "statement": "After any number of unroll(evidence) steps the marginals of PriorFeedbackExact are the exact filtering distribution of the unrolled DBN given all evidence so far.", "quantifier": "all DBNs, all evidence histories of any length", "why_tests_cant": "Unbounded histories.", "anchors": ["primo2/inference/dynamic.py:PriorFeedbackExact"]}
{"id": "C40", "title": "Prior feedback and soft evidence variants agree", "statement": "PriorFeedbackExact and SoftEvidenceExact report the same marginals for the same hard evidence histories.", "quantifier": "all DBNs, all hard evidence histories", "why_tests_cant": "Unbounded histories.", "anchors": ["primo2/inference/dynamic.py:PriorFeedbackExact", "primo2/inference/dynamic.py:SoftEvidenceExact"]}
{"id": "C41", "title": "Inference on a DBN does not modify the given network", "statement": "Unrolling never changes the DynamicBayesianNetwork that was passed in.", "quantifier": "all DBNs and histories", "why_tests_cant": "Aliasing over unbounded histories.", "anchors": ["primo2/inference/dynamic.py:PriorFeedbackExact.__init__", "primo2/inference/dynamic.py:SoftEvidenceExact"]}
{"id": "C42", "title": "Transitions refer to existing nodes", "statement": "add_transition(node, node_p) appends the pair iff node_p is in B0 and in the 2-TBN and node is in the 2-TBN; otherwise StructureError is raised and the transitions are unchanged. The constructor makes a network with the given transitions iff all of them are valid. Transitions always refer to nodes of the networks.", "quantifier": "all DBNs and names", "why_tests_cant": "All combinations of missing nodes.", "anchors": ["primo2/networks.py:DynamicBayesianNetwork.add_transition"]}
{"id": "C43", "title": "XMLBIF round trip", "statement": "XMLBIFParser.parse(write(bn)) yields a network with the same name, the same nodes in the same order, values, properties, parent orders and tables.", "quantifier": "all networks", "why_tests_cant": "All networks: table order is reversed and flattened in Fortran order.", "anchors": ["primo2/io.py:XMLBIFParser.write", "primo2/io.py:XMLBIFParser.parse"]}
{"id": "C44", "title": "DBNSpec round trip", "statement": "DBNSpec.parse(path/name.conf) after DBNSpec.write(dbn, path, name) yields the same networks and transitions.", "quantifier": "all DBNs, directory paths and names", "why_tests_cant": "All path strings.", "anchors": ["primo2/io.py:DBNSpec.write", "primo2/io.py:DBNSpec.parse"]}
{"id": "C45", "title": "Factor operations do not modify their operands", "statement": "Products, sums, quotients, marginalisation, inversion and copying leave both operands' potentials, variable order and values as they were.", "quantifier": "all factors and operations, with Python reference semantics", "why_tests_cant": "Aliasing of numpy views and lists, over all operand shapes.", "anchors": ["primo2/inference/factor.py:Factor.__mul__", "primo2/inference/factor.py:Factor.__add__", "primo2/inference/factor.py:Factor.copy", "primo2/inference/factor.py:Factor.invert", "primo2/inference/factor.py:Factor.marginalize"]}
{"id": "C46", "title": "bucket_marginals does not modify its arguments", "statement": "The caller's order list and variables list are unchanged by bucket_marginals.", "quantifier": "all calls", "why_tests_cant": "All argument lists.", "anchors": ["primo2/inference/exact.py:VariableElimination.bucket_marginals"]}
{"id": "C47", "title": "Collected samples are distinct snapshots", "statement": "list(generate_markov_chain(...)) contains the successive states of the chain.", "quantifier": "all chains", "why_tests_cant": "Aliasing between yielded dictionaries over unbounded chains.", "anchors": ["primo2/inference/mcmc.py:MarkovChainSampler.generate_markov_chain"]}
{"id": "C48", "title": "XMLBIF documents are read and written in the order of the format", "statement": "A network read from an XMLBIF document has its variables with their outcomes in the same order, exactly the edges given by the definitions, and every table entry at the configuration that the format assigns to it (GIVEN variables as listed, first one slowest, FOR variable fastest); written documents state the network in the same way.", "quantifier": "all documents and networks", "why_tests_cant": "All documents; a reader and a writer that are wrong in the same way pass every round-trip test.", "anchors": ["primo2/io.py:XMLBIFParser.write", "primo2/io.py:XMLBIFParser.parse"]}
{"id": "C49", "title": "The Markov chains leave the posterior unchanged", "statement": "If the initial state of generate_markov_chain is distributed as the posterior given the evidence, every yielded state is, for both transition models, with all variables or one random variable changed per step.", "quantifier": "all networks with non-negative tables, all evidence, burn-ins, chain lengths and positions", "why_tests_cant": "A statement about the distribution over all random draws of chains of any length; a biased kernel looks plausible in every finite experiment.", "anchors": ["primo2/inference/mcmc.py:MarkovChainSampler.generate_markov_chain", "primo2/inference/mcmc.py:GibbsTransition.step", "primo2/inference/mcmc.py:MetropolisHastingsTransition.step"]}
{"id": "C50", "title": "Forward sampling draws from the joint distribution", "statement": "get_sample returns every state with the probability that the network gives it, conditioned on the evidence.", "quantifier": "all networks with normalised tables, all evidence", "why_tests_cant": "A statement about the distribution over all random draws.", "anchors": ["primo2/networks.py:BayesianNetwork.get_sample"]}
{"id": "C51", "title": "MCMC marginals are unbiased without evidence", "statement": "The mean of the numbers MCMC.marginals returns is the exact marginal, for every burn-in and sample size, when the observed variables have only observed parents (in particular without evidence).", "quantifier": "all networks with normalised tables, all transition models, burn-ins, sample sizes, query variables", "why_tests_cant": "The mean over all random draws.", "anchors": ["primo2/inference/mcmc.py:MCMC.marginals"]}
{"id": "C52", "title": "MCMC marginals approach the exact posterior", "statement": "The states of the chain and the numbers MCMC.marginals returns approach the exact posterior as the burn-in grows, from every initial state.", "quantifier": "all networks, evidence, transition models", "why_tests_cant": "A limit statement about the distribution over all random draws.", "anchors": ["primo2/inference/mcmc.py:MCMC.marginals", "primo2/inference/mcmc.py:MarkovChainSampler.generate_markov_chain"]}
{"id": "C53", "title": "MCMC marginals are consistent", "statement": "For every accuracy and every confidence there is a sample size from which on the numbers MCMC.marginals returns are within the accuracy of the exact posterior with that confidence; their mean squared error falls like one over the number of samples.", "quantifier": "all networks, evidence, transition models, burn-ins, query variables", "why_tests_cant": "A statement about the distribution over all random draws of runs of unbounded length, whose samples are not independent.", "anchors": ["primo2/inference/mcmc.py:MCMC.marginals", "primo2/inference/mcmc.py:MarkovChainSampler.generate_markov_chain"]}
{"id": "C54", "title": "Operands that list values differently", "statement": "When two factors list the values of a common variable differently (other names, another order or another number), product and sum raise an error or combine entries of equal names.", "quantifier": "all pairs of factors", "why_tests_cant": "All value lists; the tests always use equal lists.", "anchors": ["primo2/inference/factor.py:Factor.__mul__", "primo2/inference/factor.py:Factor.__add__"]}
{"id": "C55", "title": "Forms of evidence", "statement": "Evidence given as a value name and as the array that is 1 at that value and 0 elsewhere have the same results, exceptions included, in all exact algorithms; multiplying the weights of a variable by a positive number changes no answer; equal positive weights for all values are as good as no evidence.", "quantifier": "all networks, all evidence, all queries, all elimination orders, join trees with any history", "why_tests_cant": "All evidence vectors.", "anchors": ["primo2/inference/exact.py:VariableElimination.naive_marginals", "primo2/inference/exact.py:VariableElimination.bucket_marginals", "primo2/inference/exact.py:FactorTree.set_evidence", "primo2/inference/factor.py:Factor.as_evidence"]}
{"id": "C56", "title": "Accessors of a network agree", "statement": "get_all_nodes, get_all_node_names, get_node, get_nodes, get_children and number_of_nodes describe the same nodes in the same order, after any sequence of calls; get_children returns exactly the nodes that list the node as a parent; unknown names raise an exception.", "quantifier": "all histories of calls within the contract of C20, all names", "why_tests_cant": "All histories.", "anchors": ["primo2/networks.py:BayesianNetwork.get_all_nodes", "primo2/networks.py:BayesianNetwork.get_nodes", "primo2/networks.py:BayesianNetwork.get_children", "primo2/networks.py:BayesianNetwork.number_of_nodes"]}
{"id": "C57", "title": "Clearing a network", "statement": "clear removes all nodes, edges, the name and the properties; the nodes can be added again to build another network.", "quantifier": "all networks", "why_tests_cant": "All networks and all later calls.", "anchors": ["primo2/networks.py:BayesianNetwork.clear"]}
{"id": "C58", "title": "Sampling order", "statement": "The order in which get_sample visits the nodes has every node once, after its parents; get_sample therefore succeeds on every network without a cycle and returns a value of every variable that keeps the evidence. On networks with a cycle it raises.", "quantifier": "all networks, random draws, evidence", "why_tests_cant": "All graphs.", "anchors": ["primo2/networks.py:BayesianNetwork.get_sample"]}
{"id": "C59", "title": "Networks stay free of cycles", "statement": "No call on a network without directed cycles produces one, or the call raises.", "quantifier": "all histories of calls within the contract of C20", "why_tests_cant": "All graphs and histories.", "anchors": ["primo2/networks.py:BayesianNetwork.add_edge", "primo2/networks.py:BayesianNetwork.change_node_name", "primo2/networks.py:BayesianNetwork.remove_node"]}
{"id": "C60", "title": "Variables without influence", "statement": "If a set of variables contains the query, all observed variables and the parents of all its members, then leaving the other variables out of the network changes no answer of variable elimination, provided the columns of their tables sum to one. In particular remove_node on a node without children changes no answer about the other nodes.", "quantifier": "all acyclic networks, all such sets, all queries and evidence, all elimination orders", "why_tests_cant": "All networks and all subsets of their variables.", "anchors": ["primo2/inference/exact.py:VariableElimination.naive_marginals", "primo2/inference/exact.py:VariableElimination.bucket_marginals", "primo2/networks.py:BayesianNetwork.remove_node"]}
{"id": "C61", "title": "Separated evidence", "statement": "Two bodies of evidence (hard or soft) that differ only on variables d-separated from the query by what both observe have the same answers, whenever both have positive probability.", "quantifier": "all acyclic networks with normalised tables, all pairs of evidence, all queries, all elimination orders", "why_tests_cant": "All networks, all pairs of evidence; the independence structure is never tested.", "anchors": ["primo2/inference/exact.py:VariableElimination.naive_marginals", "primo2/inference/exact.py:VariableElimination.bucket_marginals", "primo2/inference/exact.py:FactorTree.marginals"]}
{"id": "C62", "title": "Querying a variable whose parents are observed", "statement": "The answer is the row of its table that the parents select, whatever else is observed about variables that are not its descendants.", "quantifier": "all acyclic networks with normalised tables, all nodes, all such evidence, all elimination orders", "why_tests_cant": "All networks and evidence.", "anchors": ["primo2/inference/exact.py:VariableElimination.naive_marginals", "primo2/inference/exact.py:VariableElimination.bucket_marginals"]}
{"id": "C63", "title": "Drawing a value in rounded arithmetic", "statement": "With sums and products rounded after every operation, sample_value still returns one of the node's values and never falls off the end of its loop. Unless random() is exactly 0.0 the value has positive weight whenever some value has; the weights are accurate up to one rounding per child. Every value with positive weight can be returned.", "quantifier": "every rounding that is monotone and exact on its own results, all nodes, states and draws", "why_tests_cant": "The loop relies on rounded sums that agree; all combinations of weights and draws matter.", "anchors": ["primo2/nodes.py:DiscreteNode.sample_value", "primo2/nodes.py:DiscreteNode.get_markov_prob"]}
{"id": "C64", "title": "Accuracy of variable elimination", "statement": "With every product, sum and quotient rounded with relative error ulp, and sums added in any order, both forms of variable elimination return the posterior up to a factor of (1 + ulp)^K, K polynomial in the size of network, query and evidence (27 for the example network of four nodes). Impossible cases are reported as exactly 0 and possible ones as positive, barring underflow.", "quantifier": "every rounding with relative error ulp, all summation orders, all networks, queries, evidence, elimination orders", "why_tests_cant": "Tests compare a few answers up to a tolerance; the bound is over all inputs.", "anchors": ["primo2/inference/exact.py:VariableElimination.naive_marginals", "primo2/inference/exact.py:VariableElimination.bucket_marginals", "primo2/inference/factor.py:Factor.marginalize", "primo2/inference/factor.py:Factor.normalize"]}
{"id": "C65", "title": "Accuracy of the join tree", "statement": "With every product, sum and quotient rounded with relative error ulp, a join tree that was used in any way before answers, after set_evidence with hard or soft evidence (softPosteriors=False), with the posterior up to a factor of (1 + ulp)^K, K polynomial in the size of network, query and evidence; impossible cases are exactly 0. Asking leaves the tree as it is, and the answers agree with variable elimination up to the sum of both bounds. Passing the messages again changes nothing.", "quantifier": "every rounding with relative error ulp, all summation orders, all networks the tree is exact for, all histories of the tree, all evidence and queries within a clique", "why_tests_cant": "The separators are divided by earlier, rounded separators, so errors could grow with every call; tests look at single calls and at a tolerance.", "anchors": ["primo2/inference/exact.py:FactorTree.create_jointree", "primo2/inference/exact.py:FactorTree.set_evidence", "primo2/inference/exact.py:FactorTree.marginals", "primo2/inference/exact.py:FactorTree.calculate_messages", "primo2/inference/factor.py:Factor.invert"]}
{"id": "C66", "title": "Tables of variable elimination", "statement": "naive_marginals makes the table of the joint distribution. bucket_marginals sums out every variable outside the query once, in the given order, and the table it sums over has exactly the variables that are v itself or come later and are reached from v through families whose inner variables were summed out before; no other table is larger than these and the answer's. For polytrees and the default order, and for forests eliminated children first, no table is larger than one over a family and the query variables; a hub eliminated first costs the whole joint distribution.", "quantifier": "all networks, queries, evidence, elimination orders; all polytrees for the default order", "why_tests_cant": "Tests look at answers, which do not depend on the order; the sizes of intermediate tables are not observable and grow exponentially only on large networks.", "anchors": ["primo2/inference/exact.py:VariableElimination.naive_marginals", "primo2/inference/exact.py:VariableElimination.bucket_marginals", "primo2/inference/order.py:Orderer.get_min_degree_order"]}
{"id": "C67", "title": "Join trees of networks with several components", "statement": "create_jointree puts the trees of the components side by side: the cliques, tables and links inside one component are the tree built for that component alone. Only the component of the last variable of the elimination order gets messages; questions within it are answered with the posterior, whatever was done with the tree before and whatever is observed elsewhere. The tables of the other components stay as they were loaded.", "quantifier": "all networks and sets of variables that no family crosses, all elimination orders; exactness for orders that need no fill-in (all polytrees with the default order), all histories of the tree, all evidence", "why_tests_cant": "Needs all networks and all histories; no test uses an unconnected network.", "anchors": ["primo2/inference/exact.py:FactorTree.create_jointree", "primo2/inference/exact.py:FactorTree.calculate_messages", "primo2/inference/exact.py:FactorTree.set_evidence", "primo2/inference/exact.py:FactorTree.marginals"]}
{"id": "C68", "title": "Underflow and the range of floating-point numbers", "statement": "If every non-zero table entry and soft weight lies between 1/P and P, and the numbers keep their relative precision between 1/N and N for the explicit N that follows from P, the number of tables and the number of entries summed up, then neither form of variable elimination underflows: the results are those without limits, as accurate as C64 says, and nothing possible is reported as impossible. Without this condition results are still right or an exception is raised.", "quantifier": "all networks, queries, evidence, elimination orders, orders of addition, bounds P, all formats (doubles with gradual underflow are an instance)", "why_tests_cant": "Underflow needs many observations or tiny probabilities; no test has either, and a product of 0 looks like impossible evidence.", "anchors": ["primo2/inference/exact.py:VariableElimination.naive_marginals", "primo2/inference/exact.py:VariableElimination.bucket_marginals", "primo2/inference/factor.py:Factor.__mul__", "primo2/inference/factor.py:Factor.normalize"]}
{"id": "C69", "title": "Recursion limit of the message passing", "statement": "If no path from the first clique has as many links as nested calls fit under Python's recursion limit, the limit has no effect on any use of the tree. Otherwise every set_evidence and every query raises, whatever was called before, so no number from half-sent messages is returned; for legal evidence and fresh tables the exception is RecursionError. Depth is bounded: some limit is enough for all networks.", "quantifier": "all limits, all networks, all elimination orders, all histories of the tree, all evidence and queries", "why_tests_cant": "The limit is reached only by networks with hundreds of nodes in a row; what an interrupted message passing leaves behind depends on where it stopped.", "anchors": ["primo2/inference/exact.py:FactorTree.calculate_messages", "primo2/inference/exact.py:FactorTree.pull_messages", "primo2/inference/exact.py:FactorTree.push_messages", "primo2/inference/exact.py:FactorTree.set_evidence", "primo2/inference/exact.py:FactorTree.marginals"]}
{"id": "C70", "title": "Wrong uses raise the documented exception, and only they do", "statement": "Every call that builds or edits a network, sets or reads a table, makes a decision, or queries by variable elimination either succeeds or raises; which of the two, and which exception, is determined by a short list of cases (unknown node, missing edge, duplicate name, table of the wrong shape, unknown or missing value, method of another class, evidence that does not fit). A call on a network that raises leaves it unchanged. Both forms of variable elimination treat unknown names alike.", "quantifier": "all networks and decision networks reached by calls within the contracts of C20 and C33, all calls and arguments; all well-formed networks, queries and evidence", "why_tests_cant": "Tests check one wrong argument for some methods; that nothing else raises, and that nothing is half done, needs all of them.", "anchors": ["primo2/networks.py:BayesianNetwork.add_edge", "primo2/networks.py:BayesianNetwork.remove_edge", "primo2/nodes.py:DiscreteNode.set_cpd", "primo2/nodes.py:DiscreteNode.set_probability", "primo2/nodes.py:DiscreteNode.get_probability", "primo2/nodes.py:UtilityNode.get_utility", "primo2/nodes.py:DecisionNode.set_decision", "primo2/inference/exact.py:VariableElimination.naive_marginals", "primo2/inference/exact.py:VariableElimination.bucket_marginals", "primo2/inference/factor.py:Factor.as_evidence"]}
{"id": "C71", "title": "Faulty files and failing writes", "statement": "Reading a document, an XMLBIF file or a specification of a dynamic network raises exactly when the file is missing, is of the wrong kind or contains one of a short list of faults (missing elements, duplicate variables, unknown variables, numbers that are unreadable, too few or too many, transitions that name unknown variables), and the exception is that of the first fault in reading order. Writing raises exactly when the directory or the names and probabilities do not allow it; XMLBIFParser.write then writes nothing.", "quantifier": "all documents that define no variable twice, all file systems, paths and networks reached by calls", "why_tests_cant": "Tests read a few well-formed files; all malformed documents and all file systems cannot be tried.", "anchors": ["primo2/io.py:XMLBIFParser.parse", "primo2/io.py:XMLBIFParser.write", "primo2/io.py:DBNSpec.parse", "primo2/io.py:DBNSpec.write"]}
{"id": "C72", "title": "Wrong uses of a join tree", "statement": "create_jointree raises exactly for an order that names an unknown node or a node twice (NetworkXError). After any history of calls on a tree in one piece, marginals raises exactly when no clique contains the variables (ValueError), and set_evidence raises exactly for the first faulty item of the evidence: an unknown name, a value the node does not have, a weight vector of the wrong length, or a desired posterior that is zero everywhere; which exception it is depends on the fault and on softPosteriors.", "quantifier": "all networks and orders; all histories of the tree, all evidence and queries", "why_tests_cant": "Needs all histories and all kinds of malformed evidence in all positions.", "anchors": ["primo2/inference/exact.py:FactorTree.create_jointree", "primo2/inference/exact.py:FactorTree.set_evidence", "primo2/inference/exact.py:FactorTree.marginals", "primo2/inference/factor.py:Factor.as_evidence"]}
{"id": "C73", "title": "Wrong uses of the samplers", "statement": "get_sample raises exactly when a variable that has to be drawn has a parent that is given a value it does not have (ValueError); otherwise it gives every variable a value and uses one random number per variable drawn. A Markov chain from a proper start raises exactly when a variable that shares a table with a wrongly observed one is changed (ValueError), or when single variables are to be changed and there is none (IndexError); with evidence=None it raises TypeError on every non-empty network. MCMC.marginals raises exactly for these faults, unknown query variables, a query for a wrongly observed variable, and no samples.", "quantifier": "all networks with non-negative tables, all random numbers, both transition models, all starts, evidence, burn-ins and numbers of samples", "why_tests_cant": "Which observation is tripped over depends on the graph and, with single changes, on the random choices; tests use proper evidence only.", "anchors": ["primo2/networks.py:BayesianNetwork.get_sample", "primo2/inference/mcmc.py:MarkovChainSampler.generate_markov_chain", "primo2/inference/mcmc.py:MCMC.marginals", "primo2/inference/mcmc.py:GibbsTransition.step", "primo2/inference/mcmc.py:MetropolisHastingsTransition.step", "primo2/inference/factor.py:Factor.from_samples"]}
{"id": "C74", "title": "Calls that raise do not spoil a join tree", "statement": "Whatever evidence set_evidence is given, and whether or not it raises, the tree stands afterwards for exactly the items before the first faulty one (for nothing, if desired posteriors are given for an unknown variable), read as likelihoods; a call that does not raise leaves all of it. After every history of calls, any of which may raise, marginals reports the posterior given what was left for every query within a clique and raises ValueError for every other.", "quantifier": "all networks in one piece with non-negative tables, all histories of calls with changing tables and all kinds of malformed evidence", "why_tests_cant": "Tests never go on using a tree after an exception; the state left behind depends on the order of the evidence and the kind of fault.", "anchors": ["primo2/inference/exact.py:FactorTree.set_evidence", "primo2/inference/exact.py:FactorTree.reset_factors", "primo2/inference/exact.py:FactorTree.marginals", "primo2/inference/factor.py:Factor.as_evidence"]}
{"id": "C75", "title": "Inference over time, with calls that raise", "statement": "Whatever sequence of set_evidence, unroll and marginals is called on a PriorFeedbackExact or SoftEvidenceExact, including calls that raise: set_evidence raises exactly for evidence with a fault; unroll raises exactly if it sets evidence and that has a fault or, for SoftEvidenceExact, a keyword argument is given (TypeError); marginals raises AttributeError before any evidence is set and afterwards ValueError exactly for queries outside the cliques. A set_evidence that raises leaves the items before the fault, and if evidence was waiting the next unroll takes these instead. marginals reports the posterior in the network of its slice: the 2-TBN with the fed back priors, or the 2-TBN with the transition tables as desired posteriors; for PriorFeedbackExact this is the filtered distribution wherever the variables taken over are independent.", "quantifier": "all dynamic networks that can be tracked, all sequences of calls with evidence without negative weights, both methods", "why_tests_cant": "Tests never go on after an exception; the number of sequences is unbounded.", "anchors": ["primo2/inference/dynamic.py:DBNInferenceMethod.set_evidence", "primo2/inference/dynamic.py:DBNInferenceMethod.unroll", "primo2/inference/dynamic.py:PriorFeedbackExact._set_evidence", "primo2/inference/dynamic.py:SoftEvidenceExact._set_evidence", "primo2/inference/dynamic.py:PriorFeedbackExact._unroll", "primo2/inference/dynamic.py:SoftEvidenceExact._unroll", "primo2/inference/dynamic.py:PriorFeedbackExact.marginals"]}
{"id": "C76", "title": "Wrong uses of factors", "statement": "For factors whose attributes fit together, every operation raises exactly for the following faults. Product and sum: a common variable has different numbers of values, neither of which is one (ValueError). Division: also a variable of the divisor that the dividend does not have (ValueError), or a divisor without variables that is zero (FloatingPointError, also from invert). marginalize: an unknown or repeated variable (ValueError). get_potential: an unknown value of a variable of the factor (ValueError). unit_factor, zero_factor: a variable without values (KeyError). as_evidence: an unknown value or a vector of the wrong length (ValueError). from_samples: no samples (0/0), or the first sample, and in it the first variable, without a value (KeyError) or with an unknown one (ValueError). Otherwise product and sum are formed position by position, a factor with one value of a common variable being read at that value; the result fits together unless the left operand has the one value.", "quantifier": "all factors whose attributes fit together, all arguments, all set iteration orders", "why_tests_cant": "Tests use matching factors; all combinations of sizes and faults cannot be tried.", "anchors": ["primo2/inference/factor.py:Factor.__mul__", "primo2/inference/factor.py:Factor.__add__", "primo2/inference/factor.py:Factor.__truediv__", "primo2/inference/factor.py:Factor.invert", "primo2/inference/factor.py:Factor.marginalize", "primo2/inference/factor.py:Factor.get_potential", "primo2/inference/factor.py:Factor.from_samples", "primo2/inference/factor.py:Factor.as_evidence"]}
{"id": "C77", "title": "Wrong uses of the decision methods", "statement": "expected_utility raises exactly for the first decision it is given that is an unknown name (KeyError), is not a decision node (AttributeError) or has no such value (ValueError); then for a network without nodes (TypeError) and for decisions under which every joint state has product zero (FloatingPointError); otherwise it reports the expected utility of the plan. get_optimal_decisions raises exactly for the first name of the order with such a fault, and then at the first decision for which some part of the network unconnected to it is impossible (FloatingPointError) or that has several values and observes a variable with several values (ValueError); otherwise it reports for every name of the order exactly one of the decision's values. Calls change at most the tables of the decisions they name, whether or not they raise.", "quantifier": "all decision networks reached by calls, all dictionaries of decisions and orders, all set iteration orders", "why_tests_cant": "Tests make proper calls on one network; which fault is met first and whether an unconnected part is impossible depends on the whole network.", "anchors": ["primo2/inference/decision.py:VariableElimination.expected_utility", "primo2/inference/decision.py:VariableElimination.get_optimal_decisions", "primo2/inference/decision.py:VariableElimination._optimize_locally", "primo2/inference/decision.py:VariableElimination.generalized_VE", "primo2/inference/decision.py:VariableElimination._marginalize_joint_factor", "primo2/nodes.py:DecisionNode.set_decision"]}
{"id": "C78", "title": "Filtering over time in floating point", "statement": "For PriorFeedbackExact with every operation on numbers rounded to a relative accuracy ulp: after every session of set_evidence, unroll and marginals calls, some of which may raise, legal evidence is accepted, unroll succeeds, t counts the slices, and marginals over a node and its parents are within a factor of (1+ulp)^K of what exact arithmetic reports; probabilities that are zero are reported as zero and no others; asking changes nothing. K counts twice the errors of the tables handed over plus those of one join tree; with one transition the exact values are the filtered probabilities and K grows linearly with the number of slices.", "quantifier": "all dynamic networks that can be tracked, all sessions with legal evidence of any length, every rounding with a relative accuracy and every order of summation", "why_tests_cant": "The claim is about sessions of unbounded length and every way of rounding; exact values are not known to a test.", "anchors": ["primo2/inference/dynamic.py:PriorFeedbackExact._set_evidence", "primo2/inference/dynamic.py:PriorFeedbackExact._unroll", "primo2/inference/dynamic.py:PriorFeedbackExact.marginals", "primo2/inference/dynamic.py:DBNInferenceMethod.unroll", "primo2/inference/exact.py:FactorTree.set_evidence", "primo2/inference/exact.py:FactorTree.marginals"]}
{"id": "C79", "title": "Expected utilities and decisions in floating point", "statement": "With every operation on numbers rounded to a relative accuracy ulp, in a way that treats the signs alike: expected_utility leaves the network as in exact arithmetic and reports a number that differs from the expected utility of the plan by at most ((1+ulp)^K - 1) times the expected sum of the sizes of the utilities, K being fixed by the numbers of nodes and values; if no utility is negative this bounds the relative error. get_optimal_decisions for one decision without observed parents reports a value than which no other is better by more than twice such an error; a value that is better than all others by more is reported, as in exact arithmetic. With several decisions this holds for each of them in the network in which the others are mixed with the rounded 1/n. The value reported need not be the best.", "quantifier": "all decision networks reached by calls with non-negative probabilities, all legal decisions, every symmetric rounding with a relative accuracy, all summation and set iteration orders", "why_tests_cant": "The claim is about every way of rounding and cancellation between utilities of both signs; tests compare a few numbers to a few digits.", "anchors": ["primo2/inference/decision.py:VariableElimination.expected_utility", "primo2/inference/decision.py:VariableElimination.get_optimal_decisions", "primo2/inference/decision.py:VariableElimination._optimize_locally", "primo2/inference/decision.py:VariableElimination.generalized_VE", "primo2/inference/decision.py:VariableElimination._marginalize_joint_factor", "primo2/nodes.py:DecisionNode.fully_mixed"]}
{"id": "C80", "title": "The range of floating-point numbers and join trees", "statement": "If all numbers in tables and soft evidence are zero or between 1/P and P, and P to twice the number of tables and pieces of evidence, times a power of two for the additions and one of (1+ulp) for the errors, is within the range of the numbers, then construction, reset_factors, set_evidence, calculate_messages and marginals of a FactorTree, whatever it was used for before, give exactly what they give without limits to the range: no message underflows and no reciprocal overflows. Answers then have the accuracy of C65, and zero exactly where the posterior is zero. Without the condition they need not: two observations of probability 2^-515 make a tree in doubles give probability 0 to the observed value and to the other one, where variable elimination is right.", "quantifier": "all networks in one piece with non-negative tables, all histories of calls, all evidence, every arithmetic with a range and a relative accuracy inside it, all summation and set iteration orders", "why_tests_cant": "Tests use moderate numbers; when a message leaves the range depends on the tree, the evidence and all tables together.", "anchors": ["primo2/inference/exact.py:FactorTree.set_evidence", "primo2/inference/exact.py:FactorTree.pull_messages", "primo2/inference/exact.py:FactorTree.push_messages", "primo2/inference/exact.py:FactorTree.marginals", "primo2/inference/factor.py:Factor.invert", "primo2/inference/factor.py:Factor.__truediv__", "primo2/inference/factor.py:Factor.marginalize", "primo2/inference/factor.py:Factor.normalize"]}
{"id": "C81", "title": "Desired posteriors in floating point", "statement": "With every operation on numbers rounded to a relative accuracy ulp: set_evidence of a FactorTree with softPosteriors=True, whatever the tree was used for before, accepts desired posteriors that are possible and not all zero, and afterwards every answer is within a factor of (1+ulp)^K of the exact one, zeros are exact, and asking changes nothing. With one desired posterior the variable's marginals are within such a factor of it (normalised). K counts the errors of the old marginals twice. The likelihoods that the evidence stands for are only fixed up to a factor, the exact answers do not depend on it. Evidence set later is treated as in a tree that never had desired posteriors. The desired posterior need not be hit exactly.", "quantifier": "all networks in one piece with non-negative tables, all histories of calls, all possible desired posteriors and observations, every rounding with a relative accuracy, all summation and set iteration orders", "why_tests_cant": "Tests compare one desired posterior to a few digits; the claim is about all histories and every way of rounding.", "anchors": ["primo2/inference/exact.py:FactorTree.set_evidence", "primo2/inference/factor.py:Factor.as_evidence", "primo2/inference/exact.py:FactorTree.marginals", "primo2/inference/exact.py:FactorTree.calculate_messages"]}
{"id": "C82", "title": "Filtering over time with soft evidence in floating point", "statement": "For SoftEvidenceExact with every operation on numbers rounded to a relative accuracy ulp: after every session of set_evidence, unroll and marginals calls, some of which may raise, evidence for which the method works is accepted, unroll succeeds, t counts the slices, and marginals over a node and its parents are within a factor of (1+ulp)^K of what exact arithmetic reports; probabilities that are zero are reported as zero and no others; asking changes nothing. This also holds if the columns of the 2-TBN's tables sum to one only up to rounding, as in tables that were rounded when read. With one transition the exact values are the filtered probabilities and K grows linearly with the number of slices. The answers in doubles need not be the exact ones.", "quantifier": "all dynamic networks that can be tracked, all sessions of any length with possible observations off the variables taken over, every rounding with a relative accuracy and every order of summation", "why_tests_cant": "The claim is about sessions of unbounded length and every way of rounding; exact values are not known to a test.", "anchors": ["primo2/inference/dynamic.py:SoftEvidenceExact._set_evidence", "primo2/inference/dynamic.py:SoftEvidenceExact._unroll", "primo2/inference/dynamic.py:SoftEvidenceExact.marginals", "primo2/inference/dynamic.py:DBNInferenceMethod.set_evidence", "primo2/inference/dynamic.py:DBNInferenceMethod.unroll", "primo2/inference/exact.py:FactorTree.set_evidence", "primo2/inference/factor.py:Factor.as_evidence"]}
{"id": "C83", "title": "Sampling in floating point", "statement": "With every operation on probabilities rounded to a relative accuracy ulp, and random.random() one of N equally likely numbers: with the same random numbers, forward sampling and Markov chains (Gibbs and Metropolis-Hastings) make the same states as in exact arithmetic except with a probability of at most the number of updates times widest*((1+ulp)^K - 1 + 1/N), K fixed by the numbers of arcs and values. No run fails, every state keeps the evidence, and a chain from a possible state stays in possible states unless random.random() returns 0. MCMC.marginals reports the rounded frequency of each value combination, the counts having no error up to 2^53 samples. If the possible states are linked by changes of single variables, the distance of the chain's distribution from the posterior, and of the expected estimate, is that of exact arithmetic plus a term linear in ulp and 1/N that does not grow with the number of steps; the same holds of the mean squared error, so that with fine enough arithmetic long chains are close to the posterior as often as one likes. Single runs may differ: with 0.1, 0.2 and 0.7 in doubles one random number draws another value than in exact arithmetic.", "quantifier": "all networks with proper tables, all evidence, both transition models, chains of any length, every rounding with a relative accuracy, all fine enough random number generators", "why_tests_cant": "The claim bounds probabilities over all random streams, for chains of unbounded length and every way of rounding.", "anchors": ["primo2/inference/mcmc.py:MarkovChainSampler.generate_markov_chain", "primo2/inference/mcmc.py:GibbsTransition.step", "primo2/inference/mcmc.py:MetropolisHastingsTransition.step", "primo2/inference/mcmc.py:MCMC.marginals", "primo2/nodes.py:DiscreteNode.sample_value", "primo2/nodes.py:DiscreteNode.get_markov_prob", "primo2/networks.py:BayesianNetwork.get_sample", "primo2/inference/factor.py:Factor.from_samples"]}
{"id": "C84", "title": "The range of floating-point numbers and sampling", "statement": "If all probabilities in tables are zero or between 1/P and P, random.random() is zero or at least 1/U, and the range of the numbers has room for one update, then get_sample, generate_markov_chain (Gibbs and Metropolis-Hastings) and MCMC.marginals give exactly what they give without limits to the range, exceptions included, for every start, evidence and length. For Gibbs one update needs P to the largest number of children plus one, times two to the largest number of values, times U and a power of (1+ulp); for Metropolis-Hastings P to twice the number of tables. The need does not depend on the size of the network or the length of the run. All of C83 then holds with the limited range. Without room it need not: with two observed children of probability 2^-600 the weights of both values underflow in doubles, the wheel takes the first value and every proposal is accepted, so that every state is one the evidence excludes.", "quantifier": "all networks with non-negative tables, all evidence, starts and lengths, both transition models, every arithmetic with a range and a relative accuracy inside it", "why_tests_cant": "Tests use moderate probabilities; the condition is about all random streams and all lengths.", "anchors": ["primo2/nodes.py:DiscreteNode.get_markov_prob", "primo2/nodes.py:DiscreteNode.sample_value", "primo2/inference/mcmc.py:GibbsTransition.step", "primo2/inference/mcmc.py:MetropolisHastingsTransition.step", "primo2/inference/mcmc.py:MarkovChainSampler.generate_markov_chain", "primo2/inference/mcmc.py:MCMC.marginals", "primo2/networks.py:BayesianNetwork.get_sample", "primo2/inference/factor.py:Factor.from_samples"]}
{"id": "C85", "title": "The tables of the join tree", "statement": "The clusters of a FactorTree are the variables of the elimination order, each with later variables that share a family with it; there is at most one cluster for each variable of the order, and every stored table is over variables of its cluster or separator. No product, sum or inverse made by create_jointree, reset_factors, set_evidence (softPosteriors or not), calculate_messages or marginals ever has more entries than a table over one such cluster: if the operations on factors fail on larger tables, all calls still do exactly the same, whatever was called before and however it ended. For polytrees and the default order this is the size of the largest conditional probability table, for orders without fill-in that of the largest set of variables that pairwise share a family. One entry less is not enough in general.", "quantifier": "all well-formed networks whose joined names are unambiguous, all elimination orders, all histories of calls (networks with the same arcs), all evidence and queries", "why_tests_cant": "Memory use depends on networks of every size and shape; tests run on a handful of small ones.", "anchors": ["primo2/inference/exact.py:FactorTree.create_jointree", "primo2/inference/exact.py:FactorTree.reset_factors", "primo2/inference/exact.py:FactorTree.set_evidence", "primo2/inference/exact.py:FactorTree.calculate_messages", "primo2/inference/exact.py:FactorTree.pull_messages", "primo2/inference/exact.py:FactorTree.push_messages", "primo2/inference/exact.py:FactorTree.marginals", "primo2/inference/factor.py:Factor.__mul__", "primo2/inference/factor.py:Factor.marginalize", "primo2/inference/factor.py:Factor.invert"]}
{"id": "C86", "title": "Memory of filtering over time", "statement": "PriorFeedbackExact and SoftEvidenceExact need no more memory for many time slices than for one. If every table over a variable of B_0 or the 2-TBN and its later relatives in the default order has at most B entries, and products, sums and inverses of factors fail on larger tables, then every history of set_evidence, unroll and marginals calls, with any evidence and keyword arguments, failing or not, leaves the same state as without that limit, and the next call has the same outcome and answer. Between the calls there are always as many nodes as at the beginning, with tables as long as at the beginning, at most one stored vector for each transition, and a join tree with at most one clique for each node of the network it is made for. For polytrees B is the size of the largest conditional probability table. One entry less is not enough in general.", "quantifier": "all dynamic networks of well-formed networks with unambiguous joined names, both methods, all histories of calls of any length, all evidence and queries", "why_tests_cant": "The claim is about sessions of unbounded length and networks of every size; tests unroll a few slices of small ones.", "anchors": ["primo2/inference/dynamic.py:PriorFeedbackExact._set_evidence", "primo2/inference/dynamic.py:PriorFeedbackExact._unroll", "primo2/inference/dynamic.py:SoftEvidenceExact._set_evidence", "primo2/inference/dynamic.py:SoftEvidenceExact._unroll", "primo2/inference/dynamic.py:DBNInferenceMethod.set_evidence", "primo2/inference/dynamic.py:DBNInferenceMethod.unroll", "primo2/inference/exact.py:FactorTree.create_jointree", "primo2/nodes.py:DiscreteNode.set_cpd"]}
{"id": "C87", "title": "Saving what was loaded leaves the file as it was", "statement": "A network that is written, read and written again gives the same document as the first time (without properties if any of the calls ignored them), and the file on disk stays as it is; the same for all three files of a dynamic network. This holds if the network has a name, no empty properties and tables of floats; whatever those lose is lost the first time, and from the second saving on nothing changes. A document from elsewhere that was read can be written, the result is read again, as the same network with the same answers, and is from then on stable. With the default flags, the default name, integer tables or variables without outcomes the first saving differs.", "quantifier": "All reachable networks, all documents that list nothing twice, all settings of the flags, all heaps and file systems", "why_tests_cant": "A test compares a few files; stability of every network and every foreign document under any number of load-save cycles is a statement about all of them", "anchors": ["primo2/io.py:XMLBIFParser.parse", "primo2/io.py:XMLBIFParser.write", "primo2/io.py:DBNSpec.parse", "primo2/io.py:DBNSpec.write"]}
{"id": "C88", "title": "The order of construction does not matter", "statement": "Two networks with the same variables, values and probabilities give the same answers, in whatever order nodes, values, parents and edges were added, with evidence and queries in any order, for any elimination orders and any order in which Python iterates over its sets: naive_marginals, bucket_marginals and join trees in one piece hold the same number for every instantiation, and forward sampling draws every state with the same probability. For networks made through the API it is enough (and necessary) that get_probability answers alike. Soft evidence lists numbers in the order of the values and has to be reordered with them; whether the join tree of the default order falls apart does depend on the order in which nodes were added.", "quantifier": "All pairs of well-formed networks that say the same; all evidence, queries, elimination orders and set orders", "why_tests_cant": "Tests build each network in one order and run under one hash seed; the claim compares all ways to build and run", "anchors": ["primo2/inference/exact.py:VariableElimination.naive_marginals", "primo2/inference/exact.py:VariableElimination.bucket_marginals", "primo2/inference/exact.py:FactorTree.create_jointree", "primo2/nodes.py:DiscreteNode.get_probability"]}
{"id": "C89", "title": "Answers obey the laws of probability", "statement": "Answers to different queries fit together, whichever of naive_marginals, bucket_marginals (any elimination order) and a join tree in one piece gave each of them: a joint answer summed over one variable is the answer for the others; a joint answer is the answer for one variable times the answer for the others once that variable is observed (chain rule, also when the observation is impossible); averaging over all observations gives the answer without observation (law of total probability); Bayes' rule holds; an observed variable is reported to have its observed value with certainty whenever the evidence is possible.", "quantifier": "All well-formed networks with nonnegative tables, all evidence (hard and soft), queries, observations, elimination orders, set orders and combinations of methods", "why_tests_cant": "Tests compare single numbers with expected ones; these laws relate answers under different evidence for all networks", "anchors": ["primo2/inference/exact.py:VariableElimination.naive_marginals", "primo2/inference/exact.py:VariableElimination.bucket_marginals", "primo2/inference/exact.py:FactorTree.set_evidence", "primo2/inference/exact.py:FactorTree.marginals"]}
{"id": "C90", "title": "Reported decisions do not depend on the unit of utility", "statement": "Expected utilities lie between the least and the greatest utility a state can have. With utilities a*u + c instead of u the expected utilities are a*EU + c, and for a > 0 get_optimal_decisions reports the same decisions, for any list of decisions and any fixed decisions. For any list of decisions without observed parents it reports, for each, the first value with the greatest expected utility when the other decisions of the list are fixed or evenly mixed. For a single decision no rule that mixes decisions, such as the one in the node's table, has a greater expected utility than the reported decision.", "quantifier": "All reachable decision networks, utilities, units, lists of decisions, fixed decisions and iteration orders of sets", "why_tests_cant": "A test compares decisions of one network; the statement relates all networks that differ in their utilities by an affine map", "anchors": ["primo2/inference/decision.py:VariableElimination.expected_utility", "primo2/inference/decision.py:VariableElimination.get_optimal_decisions", "primo2/inference/decision.py:VariableElimination._optimize_locally"]}
{"id": "C91", "title": "Transition models of one's own", "statement": "MCMC and MarkovChainSampler work with any transition model: the default is Metropolis-Hastings, the abstract class raises NotImplementedError as soon as a step is asked of it, and for any step that leads from complete states keeping the evidence to such states the result lists the relative frequencies in the states number burnIn+1 to burnIn+numSamples of the chain that starts with a forward sample; the first exception of a step is the exception of the call. If the steps leave the posterior as it is, every state of a chain started from the posterior is distributed as the posterior. The two models of the package, sequences of such models and random choices between two of them (by a draw, not by looking at the state) meet these conditions, and detailed balance is enough for the last one. With such steps and evidence whose parents are all observed, the numbers MCMC.marginals returns have the posterior as their mean, provided the steps depend on the values in the state and not on the order of its keys; without that proviso, or with evidence below unobserved variables, the claim is false. If each step leads from every state that agrees with the evidence to every other with a chance of at least e, chains and means of estimates are within (1-e)^k of the posterior after k steps, wherever the evidence is.", "quantifier": "All networks, evidence, random draws and all transition models whose step depends on its arguments and the random module only", "why_tests_cant": "A test runs a chain with one transition model; the statement is about every class a user may derive from TransitionModel", "anchors": ["primo2/inference/mcmc.py:MCMC.marginals", "primo2/inference/mcmc.py:MarkovChainSampler.generate_markov_chain", "primo2/inference/mcmc.py:MarkovChainSampler.__init__", "primo2/inference/mcmc.py:TransitionModel.step"]}
{"id": "C92", "title": "Answers move no further than the tables", "statement": "If the entries of k tables are replaced by entries between lo and hi times what they were (0 < lo <= hi), no answer becomes more than (hi/lo)^k times greater or smaller, whichever of naive_marginals, bucket_marginals (any elimination order) and a join tree in one piece gave each of the two; nor do the odds of two answers change by more than that factor, which is attained; answers are zero in the one network if and only if they are in the other. In particular, multiplying tables by constants changes no answer, so columns need not sum to one. The same holds if the weights of k pieces of soft evidence change by such factors; soft evidence matters only up to a constant. A bound on differences instead of factors does not suffice: changing entries by at most 1/1000 can turn an answer from 0 to 1.", "quantifier": "All pairs of well-formed networks with nonnegative tables that differ in tables only, all evidence (hard and soft), queries, elimination orders, set orders and combinations of methods", "why_tests_cant": "A test runs one network; the statement compares every network with all networks around it", "anchors": ["primo2/inference/exact.py:VariableElimination.naive_marginals", "primo2/inference/exact.py:VariableElimination.bucket_marginals", "primo2/inference/exact.py:FactorTree.marginals", "primo2/nodes.py:DiscreteNode.set_cpd"]}
{"id": "C93", "title": "Transition models with a memory", "statement": "A transition model may keep attributes of its own. With any such model whose steps lead from complete states keeping the evidence to such states, MCMC.marginals returns the relative frequencies in the states number burnIn+1 to burnIn+numSamples of the chain, and leaves in the object what these steps leave there; an exception of a step is the exception of the call, and the object keeps what it had then. The next call with the same MCMC object starts from there. With models that keep nothing, such as the two of the package, every call of any sequence of calls returns what it would return alone. With memory it may not, and a model that adapts to what it has seen need not leave the posterior as it is, even if its step does for every content of the memory.", "quantifier": "All networks, evidence, queries, random draws, transition models with memory of any type, sequences of calls of any length", "why_tests_cant": "A test runs one model; the statement is about every class derived from TransitionModel and every sequence of calls", "anchors": ["primo2/inference/mcmc.py:MCMC.marginals", "primo2/inference/mcmc.py:MarkovChainSampler.generate_markov_chain", "primo2/inference/mcmc.py:MarkovChainSampler.__init__", "primo2/inference/mcmc.py:TransitionModel.step"]}
