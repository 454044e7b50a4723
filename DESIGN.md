# PRIMO in Rocq: design

Source: `/repo/primo2` (Python). Model and proofs: `/verif/rocq/theories` (Coq 8.16.1, standard library only).
Properties: `properties.jsonl`. Theorem names per property: `MANIFEST.json`. Experiments with wrong programs: `seeded/LOG.jsonl`.

## 1. How the development is laid out

- **Model** (definitions only; every definition cites file and lines):
  `Base`, `NDArray` (numpy), `Factor`, `Order`, `Exact`, `JoinTree`, `Node`, `Network`, `Sampling`, `Topo` (networkx), `Access`, `Decision`, `Dynamic`, `Xml`, `IO`, `Files`, `FactorHeap`, `Rounded`, `RoundedTree`, `RoundedDyn`, `RoundedDec`, `RoundedSoft`, `RoundedSoftDyn`, `RoundedSample` (floating point), `Ranged`, `RangedSample`, `RangedTree` (floating point with underflow), `Tables` (variable elimination with a record of its tables), `TreeTables`, `DynTables` (join trees with limited memory), `RecLimit` (message passing under a recursion limit), `Stream` (the estimator that counts while it samples), `UserSampling`, `MemSampling` (transition models of the user's own, without and with memory).
- **Specifications** (what the properties mean, written without the model's algorithms):
  `Spec`, `FactorSpec`, `OrderSpec`, `TreeSpec`, `NetSpec`, `MCSpec`, `LawSpec`, `DecSpec`, `DynSpec`, `IOSpec`, `FilesSpec`, `ParseSpec`, `FactorHeapSpec`, `EvSpec`, `TopoSpec`, `SepSpec`, `RoundedSpec`, `RoundedTreeSpec`, `RoundedDynSpec`, `RoundedDecSpec`, `RoundedSoftSpec`, `RoundedSoftDynSpec`, `RoundedSampleSpec`, `RangedSampleSpec`, `RangedTreeSpec`, `TablesSpec`, `TreeTablesSpec`, `DynTablesSpec`, `SaveSpec`, `SameSpec`, `CoherentSpec`, `UnitSpec`, `UserSpec`, `ChangeSpec`, `MemSpec`, `PartSpec`, `RangedSpec`, `RecLimitSpec`, `ErrSpec`, `DocSpec`, `TreeErrSpec`, `SampleErrSpec`, `LeftSpec`, `DynUseSpec`, `FactorErrSpec`, `DecErrSpec`.
- **Property files** (statement, one-line proof, `Print Assumptions`; beside each theorem an example that meets its hypotheses):
  `PropFactor` (C01-C06, C08, C10, C54), `PropVE` (C11-C14, C46), `PropEvidence` (C55), `PropTree` (C09, C13, C15-C19), `PropNet` (C07, C20-C26), `PropGraph` (C56-C59), `PropSep` (C60-C62), `PropMCMC` (C27-C32, C47), `PropLaw` (C49-C53), `PropLawClass` (C52 and C53 for unlinked states), `PropDecision` (C33-C36, parts of C07 and C26), `PropDynamic` (C37-C42), `PropIO` (C43, C44, C48), `PropHeap` (C45), `PropRounded` (C63, C64), `PropRoundedTree` (C65), `PropTables` (C66), `PropParts` (C67), `PropRanged` (C68), `PropLimit` (C69), `PropErrors` (C70), `PropFiles` (C71), `PropTreeErrors` (C72), `PropSampleErrors` (C73), `PropLeft` (C74), `PropDynUse` (C75), `PropFactorErr` (C76), `PropDecErr` (C77), `PropRoundedDyn` (C78), `PropRoundedDec` (C79), `PropRangedTree` (C80), `PropRoundedSoft` (C81), `PropRoundedSoftDyn` (C82), `PropRoundedSample` (C83), `PropRangedSample` (C84), `PropTreeTables` (C85), `PropDynTables` (C86), `PropSave` (C87), `PropSame` (C88), `PropCoherent` (C89), `PropUnit` (C90), `PropUser`, `PropUserMean` and `PropUserLimit` (C91), `PropChange` (C92), `PropMem` (C93).
- **Concrete networks and instances**: `Instances`, `ExampleNets`, `Checks`, `NetChecks`, `MCChecks`, `DecChecks`, `DynChecks`, `IOChecks`, `Fractions`. They are used for the examples and the refutations.
- **PRIMO's own unit tests**: `Suite`, `Suite2` replay `primo2/tests` on the model (70 examples, all pass).
- All other files are proofs.

A theorem name ending in `_partial` proves part of its property; the comment above it says what is missing. A name ending in `_refuted` is an existential statement with a concrete witness: the property as worded is false of the model.

## 2. Modelling decisions

| Python | model |
|---|---|
| `float`, `np.float64` | exact rationals `Qc` (canonical, so equality is Leibniz). Overflow and `-0.0` are not modelled; underflow is modelled for variable elimination (`Ranged.v`, C68; instance `ieee` in `RangedDouble.v`: doubles with gradual underflow) and join trees (`RangedTree.v`, C80; instance `ieee_inv` in `RangedTreeDouble.v`, where infinite reciprocals become 0) and sampling (`RangedSample.v`, C84), nowhere else. Rounding is modelled for variable elimination, sampling, join trees, prior feedback with softPosteriors=False, the soft evidence method and the decision methods (`Rounded.v`, `RoundedTree.v`, `RoundedDyn.v`, `RoundedDec.v`, `RoundedSoft.v`, `RoundedSoftDyn.v`, `RoundedSample.v`, C63-C65, C78, C79, C81-C83), elsewhere numbers are exact. There class `Rounding` is any monotone rounding with bounded relative error (for decisions also class `Symmetric`: the signs are treated alike) and class `Adding` any order of summation; instances: doubles with unbounded exponents, one-by-one and pairwise sums. Where the code would produce `inf` or `nan` the model returns the error value `NonFinite`. |
| numpy arrays | shape + row-major data; `transpose`, `newaxis`, broadcasting, `sum(axis)`, `ix_`, `squeeze`, `reshape(order="F")` are index functions as in numpy's manual. Integer against float matters only for node tables (`tint`: assignments into integer tables truncate); factors are float tables. |
| `dict`, networkx adjacency | association list in insertion order (Python >= 3.7). |
| iteration over a `set` | an oracle. Class `SetOrder` lists a set of names in any duplicate-free order; class `BagOrder` permutes sets of factor objects arbitrarily, differently at each call. All theorems quantify over both (hash seeds, memory addresses). |
| `nx.topological_sort` | in `Sampling` an argument: any list with the property of a topological order. `Topo` models networkx's own algorithm (2.0-2.3), which `PropGraph` proves to produce such a list for every acyclic network (C58). |
| exceptions | `res A := Ok a / Err e`; stateful functions also return the state at the moment of the exception. |
| node objects | a heap of nodes indexed by object identity; equality and hashing by name as in `RandomNode.__eq__/__hash__`. The inference code reads a network through a snapshot (`Exact.bn`); `NetView` proves that each reachable heap has the snapshot used. |
| factor objects | values in `Factor.v`; with references and in-place writes in `FactorHeap.v`, which is proved to refine it (C45). |
| `random.random`, `random.choice` | explicit streams (`rng`); theorems hold for all streams, and `MCSpec` measures the set of draws leading to a result. For the distribution of results (`LawSpec`) each call has N equally likely outcomes: the midpoints of N equal parts of (0,1), and N positions. For all multiples N of a denominator of the network the probabilities are those of uniform draws; results that need a draw of exactly 0.0 have probability 0 there. |
| recursion over the join tree | fuel; running out is `RecursionError`, as a cyclic tree would give. CPython's limit of about 1000 frames is modelled in `RecLimit.v` as a limit on nested calls of the message passing (C69); other theorems are about networks that stay below it. |
| `copy.deepcopy` of a network (dynamic.py) | a second heap in which every node object is a copy; the references follow. |
| lxml | element trees with attributes and text (`Xml.v`): which characters an XML text can hold is modelled, the concrete syntax is not. |
| `str(float)`, `float(str)` | class `FloatText`: any pair with `read (print x) = x`, the printed text not empty and without blanks. `Fractions.v` is an instance. |
| json, `open`, `os.path` | documents as abstract JSON values; a map from paths to contents with relative and absolute paths. No links, permissions or concurrent writers. |

Environment assumed: numpy < 1.23 for indexing with a list of slices (`factor.py:108` and others), networkx 2.0-2.3 (`tree.node`), Python >= 3.7.

## 3. What is modelled

| file | modelled | not modelled |
|---|---|---|
| `nodes.py` | all of `RandomNode`, `DiscreteNode`, `UtilityNode`, `DecisionNode` (27-606) | `__str__`, `__repr__` (66-70); non-string names and values; `set_cpd` of the abstract class (39) |
| `networks.py` | `BayesianNetwork` (28-184), `DynamicBayesianNetwork` (187-315), `DecisionNetwork` (318-326) | attributes set from outside the classes, except through the node methods |
| `inference/factor.py` | class `Factor` (28-616) | dtype of factors |
| `inference/exact.py` | both classes (29-451) | printing |
| `inference/order.py` | both orders (33-108) | the `TypeError` for arguments that are not networks |
| `inference/mcmc.py` | `MCMC`, `MarkovChainSampler`, both transition models (26-243), transition models of the user's own (`UserSampling`, with memory: `MemSampling`) | transition models that change the network |
| `inference/decision.py` | 16-218 | `get_decision` (21), a stub returning `None` |
| `inference/dynamic.py` | 36-322 | the abstract methods as such (they only raise `NotImplementedError`) |
| `io.py` | 31-264 | XML and JSON concrete syntax, encodings |
| `exceptions.py` | as error constructors | message texts |

The assertions of `primo2/tests` are replayed on the model in `Suite` and `Suite2`, except those about messages, about arguments of the wrong type, and `MCMC_test.py` (covered by C28).

## 4. Trusted base

- Coq's kernel (and `vm_compute` for the concrete examples).
- Axioms: none. `Print Assumptions` says "Closed under the global context" for each theorem in the property files. `vcheck` lists seven constants `Coq.ssr.ssrunder.Under_rel.*` as axioms of loaded libraries. They are parameters of a module type in the standard library's ssreflect files, which `Setoid` loads; no theorem here depends on them.
- The faithfulness of the model to the Python text and to numpy, networkx and lxml, which rests on reading (section 2 and the comments in the model files) and on the replayed unit tests: the same inputs give the same results there.
- The specifications, which are meant to be read: they are small and separate.

## 5. Status of each property

`partial` also covers properties that are false as worded: then the true part is proved and the rest refuted with a witness.

| | property | status | what is proved, what is missing or false |
|---|---|---|---|
| C01 | Factor product is the pointwise product | proved | Also the sum (__add__). For factors without variables both operands are covered. |
| C02 | Factor product is commutative and associative as a function | proved | As stated. |
| C03 | marginalize sums out exactly the given variables | proved | As stated. |
| C04 | Factor division and inversion | partial | Holds whenever the divisor has at least one variable or is non-zero; a variable-free divisor 0.0 raises instead of giving 0 (refuted with witness). |
| C05 | normalize | proved | As stated. |
| C06 | get_potential selects by name and value | proved | As stated. |
| C07 | Factors of nodes mirror the CPTs | partial | from_node: all nodes of reachable networks, all instantiations. Utility nodes: whenever the node has parents or a table. False for a fresh parentless utility node: its factor exists, get_utility raises TypeError. |
| C08 | Evidence factors | proved | As stated. |
| C09 | Soft evidence as desired posterior | proved | For every tree reachable by any call history from a created junction tree. |
| C10 | Factor.from_samples gives relative frequencies | proved | As stated. |
| C11 | naive_marginals is the posterior by definition | proved | As stated. |
| C12 | bucket_marginals equals the posterior for every elimination order | proved | The claim is for duplicate-free queries; the last theorem shows that the restriction is needed. |
| C13 | Posterior results are probability distributions | partial | Both VE algorithms: all networks. FactorTree: whenever the tree is in one piece and the joined names are unambiguous; false for disconnected networks (refuted), see C67. |
| C14 | Elimination orders are permutations chosen greedily by degree | partial | Permutation and greedy choice hold for the undirected skeleton; false for the interaction graph of the CPTs (the code does not moralise). |
| C15 | FactorTree marginals are exact | partial | Proved for every network and every elimination order whose tree is in one piece (C15_one_piece), if the joined names are unambiguous; in particular for perfect orders of connected networks and for connected polytrees with the default order. False in general: create_jointree adds no fill-in edges, so that the tree may fall apart (wrong marginals, connected network, default order), clusters with equal joined names are merged (query fails), and in a network of two unconnected chains a prior marginal is wrong (C67 says which questions are still answered exactly). |
| C16 | create_jointree builds a junction tree | partial | For every elimination order: the tree is a junction tree exactly when it is in one piece (unambiguous joined names). It is for perfect orders of connected networks, hence for connected polytrees with the default order. Refuted for a connected 5-node network with the default order. |
| C17 | Evidence in a FactorTree is replaced, not accumulated | partial | Proved for all call histories on junction trees incl. failing calls and changed tables. False: tables changed after the last set_evidence/reset_factors are not seen. |
| C18 | Message passing is idempotent | partial | Proved for every elimination order, every sequence of calls before and every zero pattern: a second pass changes no clique table and no answer. Needs unambiguous joined names (self-loops otherwise, refuted), and the second pass may raise FloatingPointError at an empty separator table of value 0 (refuted); for the junction trees of C16 it never raises. |
| C19 | Failed set_evidence leaves no trace | partial | False: items before the rejected one stay in the tree. Proved exactly which evidence remains. |
| C20 | Network structure invariants | partial | Proved for all histories, incl. failing calls, in which nodes are added without parents, edges are not added twice and nodes are renamed by name to a free name. Refuted without: duplicate edges and re-added nodes break it. |
| C21 | CPT shapes always fit the structure | partial | As C20; refuted for re-added nodes. |
| C22 | Structural edits only touch the node concerned | partial | Frame property for arbitrary states and edits. Exact effect for reachable networks (contract as C20). |
| C23 | Renaming a node preserves the distribution | proved | For all networks reached as in C20 and all fresh names. |
| C24 | Renaming rejects or tolerates every argument safely | partial | False: a name in use loses a node; giving the node object fails half-way. Holds for names that are free. |
| C25 | The valid flag tells whether the table was set for the current structure | partial | All histories within the contract of C20; false for parents without values (add_edge fails half-way). |
| C26 | set_probability writes exactly the matching entries | partial | All reachable nodes with floating point tables; false for integer tables (values are truncated). The same for set_utility/get_utility. |
| C27 | sample_value draws from the stated distribution | partial | All weights and all r in (0,1). False at r = 0.0: the first value is returned even if its weight is 0. |
| C28 | Gibbs weights are the full conditional | proved | All networks built through the API with non-negative tables, all complete states. |
| C29 | Metropolis-Hastings satisfies detailed balance | partial | Detailed balance for all states, incl. those of probability 0, and the exact acceptance rule. Zero-probability states are never entered if no draw is exactly 0.0; false for r = 0.0. |
| C30 | Markov chains keep evidence fixed and stay in the domain | partial | Both transitions, both step modes, all random streams and lengths, if some variable is free or all change per step. False when all variables are evidence (IndexError) and for the default evidence=None (TypeError). |
| C31 | Forward samples follow the network distribution | proved | All networks, evidence, topological orders and random streams; box for positive draws. |
| C32 | MCMC marginals are normalised frequencies of the chain | partial | All parameters, if some variable is free or all change per step; otherwise IndexError. |
| C33 | expected_utility is the expectation of the summed utilities | proved | All reachable decision networks, all (partial) decision assignments, all iteration orders, for non-negative tables with a non-zero normaliser. |
| C34 | get_optimal_decisions maximises expected utility | partial | Proved when one decision is optimised. False for two or more: each is optimised against evenly mixed others. Decisions with observed parents raise ValueError. |
| C35 | fixedDecisions are respected | partial | False: a fixed decision in the order is optimised again; proved that the fixed value has no influence on it. |
| C36 | set_decision makes the rule deterministic, or fails without effect | partial | set_decision and fully_mixed as stated. An unknown decision raises ValueError, but sets the rule to zero first (proved for all nodes, hence the last clause is refuted). |
| C37 | DBN unrolling state machine | partial | The time and the answering network are right in every history, exceptions included. Which evidence is used: proved for histories whose calls succeed; refuted when a set_evidence raises after an earlier one succeeded (the next unroll uses part of the failed call's evidence). Calls that raise: what the slices then observe is C75. |
| C38 | set_evidence and unroll interpret evidence alike | partial | set_evidence drops its keyword arguments: the states are equal without soft_posteriors, and with it for hard evidence; refuted for soft evidence and for SoftEvidenceExact. |
| C39 | Prior feedback filtering is exact | partial | Exact in every session for networks that suit the join tree when the variables taken over are independent given the evidence: always with one transition, and with several when all but one are observed. Refuted for dependent variables and for value lists in different order. |
| C40 | Prior feedback and soft evidence variants agree | partial | Agreement in every pair of sessions with the same hard evidence, off the variables taken over and possible; refuted for evidence on a variable taken over and for values the 2-TBN itself excludes. |
| C41 | Inference on a DBN does not modify the given network | proved | All methods, networks and histories, exceptions included. |
| C42 | Transitions refer to existing nodes | partial | Exactly the valid transitions are appended, also by the constructor; one of the three errors is a KeyError instead of StructureError (refuted). The setters of b0 and two_tbn keep transitions whose nodes are gone (refuted). |
| C43 | XMLBIF round trip | partial | All reachable networks whose texts XML can hold, with non-empty names and values, for all flags: same nodes, order, values, parent orders, edges, tables and answers to all queries. Refuted for the default (empty) name, the default flags, nodes without values, empty values, control characters, integer tables. |
| C44 | DBNSpec round trip | partial | All directories given with a final slash (or empty), all names without slash, read from any working directory by any path. Refuted without the final slash and for names with a slash. |
| C45 | Factor operations do not modify their operands | proved | All programs of copies, products, sums, quotients, inversions, marginalisations and in-place normalisations over objects with references: refinement of the value model, exceptions included, no sharing. Outside the listed operations: __mul__ with useOther=True (never used) changes its operand, and get_potential() without variables returns the live table (refutations). |
| C46 | bucket_marginals does not modify its arguments | partial | False: the caller's order list is reordered in place; the resulting list is characterised. The variables list is only iterated by the code. |
| C47 | Collected samples are distinct snapshots | partial | False: the generator yields one dict object; proved that collected samples all equal the last state. |
| C48 | XMLBIF documents are read and written in the order of the format | partial | All documents that define no variable twice and list no GIVEN twice; written documents of all reachable networks that can be written. Refuted for repeated GIVEN and for line breaks in tables. |
| C49 | The Markov chains leave the posterior unchanged | proved | All networks with non-negative tables, all evidence, both transition models, both step modes, all lengths. Probabilities are exact counts over N equally likely draws per call for all multiples N of a denominator of the network. |
| C50 | Forward sampling draws from the joint distribution | partial | The distribution of the sample for all evidence; it is the posterior when the parents of observed variables are observed, refuted otherwise. |
| C51 | MCMC marginals are unbiased without evidence | proved | All networks with normalised tables; evidence upstream and possible. |
| C52 | MCMC marginals approach the exact posterior | partial | Geometric convergence whenever the possible states are linked by changes of one variable, and (C52_chain_iff) exactly then; a chain visits only states linked to its start. The estimates need in addition that sampling starts in possible states (true for evidence upstream, or if the tables of observed nodes have no zeros). Otherwise refuted: every run reports 0 or 1 where the posterior is 1/2. Without any condition on the linkage, chains approach the posterior among the states linked to their start (C52_component_law), and estimates its mean over the forward samples. Started in an impossible state the Gibbs sampler may stay there for ever (C52_impossible_start_refuted). |
| C53 | MCMC marginals are consistent | partial | For linked possible states and possible starts (in particular tables without zeros), any burn-in, both transition models; refuted for unlinked states: every run is off by more than 1/4; what the runs then approach is the posterior among the states linked to their start, with squared error B/n. |
| C54 | Operands that list values differently | partial | Different numbers of values (neither being 1) raise ValueError. Equal numbers: entries are paired by position, so the claim is false for other orders and names; false also for one-value lists. The result for every combination of sizes is C76_stretched. |
| C55 | Forms of evidence | proved | Named values and indicators: all networks, literally equal results including exceptions (join tree: any tree; with soft posteriors, trees with any history). Scaling and equal weights: all well-formed networks with non-negative tables. Scaling by zero is shown to differ. |
| C56 | Accessors of a network agree | proved | All worlds reached within the contract of C20. |
| C57 | Clearing a network | partial | Nodes and edges are removed (all worlds). Name and properties stay although the doc string says otherwise, and nodes keep their parents: added again they make the network inconsistent. |
| C58 | Sampling order | proved | networkx's generator is modelled (networkx 2.0-2.3) and proved to yield exactly the nodes no cycle leads to, for all graphs. |
| C59 | Networks stay free of cycles | partial | All calls except add_edge keep networks acyclic; add_edge does exactly when there is no path back. It closes cycles without an exception, after which sampling raises. |
| C60 | Variables without influence | proved | Variable elimination: all networks and sets; join trees of the smaller network where C15 applies. The proviso is needed: a new node whose table was never set makes every answer zero (refuted). |
| C61 | Separated evidence | partial | Proved for the posterior and for both forms of variable elimination; for join trees where C15 applies. C61_trails needs neither acyclicity nor normalised tables. |
| C62 | Querying a variable whose parents are observed | proved | All acyclic networks with normalised tables. |
| C63 | Drawing a value in rounded arithmetic | partial | All but the last sentence proved, for every rounding. The last is false in doubles: a weight of 2^-60 after a weight of 1 is never drawn. |
| C64 | Accuracy of variable elimination | proved | For every rounding and order of addition, without overflow and underflow; bucket elimination for queries no longer than the elimination order. C64_tables also counts errors made when tables were read. Exact statements are false in doubles: answers need not sum to 1, the two forms need not agree, the order of addition matters (refuted). |
| C65 | Accuracy of the join tree | partial | All but the last sentence proved, under the conditions of C15 on the network (suits), without overflow and underflow. The last sentence, true in exact arithmetic (C18_messages_again_partial), is false in doubles. |
| C66 | Tables of variable elimination | proved | All networks. Tables are recorded by a copy of the functions that is proved to return the same (C66_same_program); arrays inside a single factor operation are not recorded. |
| C67 | Join trees of networks with several components | proved | For every part of the tree that is in one piece, which it is for perfect orders (C67_joined); softPosteriors=False. |
| C68 | Underflow and the range of floating-point numbers | partial | All but the last sentence proved. The last is false in doubles: two observations of probability 2^-600 make every answer 0, and two of probability 2^-537 make an answer 1 that should be 3/4. Join trees: C80. |
| C69 | Recursion limit of the message passing | partial | All but the last sentence proved. The last is false: for every limit, a chain of 4*limit+2 nodes has a join tree that is too deep, whatever order makes it; 2*limit+2 nodes are too many for the default order and every other order that needs no fill-in. The limit counts nested calls of pull_messages or push_messages, not all Python frames. |
| C70 | Wrong uses raise the documented exception, and only they do | partial | All but the last sentence proved; the last is false: naive_marginals ignores names that are not in the network, bucket_marginals raises ValueError (refuted). set_decision has cleared the table when it raises (C36). |
| C71 | Faulty files and failing writes | proved | Documents are trees of elements (the XML and JSON concrete syntax is not modelled; a file of the wrong kind raises). |
| C72 | Wrong uses of a join tree | proved | marginals and set_evidence: trees in one piece (suits, see C16_one_piece). NonFinite stands for a division by zero that numpy answers with inf or nan. |
| C73 | Wrong uses of the samplers | proved | Evidence values that a variable does not have; NonFinite stands for 0/0 in from_samples (no samples). |
| C74 | Calls that raise do not spoil a join tree | proved | Trees in one piece (suits, see C16_one_piece). After a call that raises the caller still holds the tree; reading set_evidence's argument as likelihoods is LeftSpec.read_as. |
| C75 | Inference over time, with calls that raise | proved | Networks as in C39 (trackable); the exact reading of evidence as likelihoods is LeftSpec.leaves, the network of a slice DynUseSpec.read_net. |
| C76 | Wrong uses of factors | proved | as_evidence with a desired posterior: C70_soft_posterior. NonFinite stands for 0/0 in from_samples. |
| C77 | Wrong uses of the decision methods | proved | Tables of probabilities are assumed to have no negative numbers (those of the decisions to be set or optimised excepted). |
| C78 | Filtering over time in floating point | proved | Networks as in C39 (trackable), evidence as likelihoods (soft_posteriors not given or False). The program is that of C39 by C78_same_program; no overflow or underflow. C78_exact_refuted: in doubles the answers do differ from the exact ones. With m transitions the bound multiplies by m per slice. |
| C79 | Expected utilities and decisions in floating point | proved | The programs are those of C33 and C34 by C79_same_program; no overflow or underflow. Decisions without observed parents (with them get_optimal_decisions raises, C34_informed_partial). C79_best_refuted: in doubles the reported decision need not be the best. |
| C80 | The range of floating-point numbers and join trees | proved | The program is that of C65 with other roundings (C80_same_program); evidence with softPosteriors=False. Results outside the range are arbitrary, except for infinite reciprocals in the instance ieee_inv (doubles), which become 0 as in factor.py:278. C80_reciprocal_refuted: without the condition the tree can be wrong where variable elimination is right. |
| C81 | Desired posteriors in floating point | proved | The program is that of C09 and C16 by C81_same_program; no overflow or underflow. C81_exact_refuted: in doubles the desired posterior need not be hit exactly. |
| C82 | Filtering over time with soft evidence in floating point | proved | Networks as in C39 (trackable), evidence as in C40 (soft_ok: hard, possible, off the variables taken over, values not excluded by the 2-TBN). The program is that of C40 by C82_same_program; no overflow or underflow. C82_exact_refuted: in doubles the answers do differ from the exact ones. With m transitions the bound multiplies by m per slice. |
| C83 | Sampling in floating point | proved | Generators as in C49-C53 (N equally likely numbers; for the distance from the posterior N a multiple of a denominator of the network). The program is that of C27-C32 by C83_same_program; no overflow or underflow. C83_posterior, C83_estimate, C83_squared_error and C83_consistent need the linked states of C52. C83_same_refuted: single runs in doubles do differ from exact ones. |
| C84 | The range of floating-point numbers and sampling | proved | The program is that of C83 by C84_same_program with the rounding replaced; what results outside the range become is left open. C84_range_refuted: without room the chains in IEEE doubles (gradual underflow) go to impossible states. |
| C85 | The tables of the join tree | proved | The limit is for each product, sum over a variable and inverse; factors read from nodes and evidence are not counted. The program is that of C15-C19 by C65_same_program and C81_same_program. C85_less_refuted: a limit one below the bound makes calls fail. |
| C86 | Memory of filtering over time | proved | The limit is for each product, sum over a variable and inverse, as in C85. Equality with the functions of C37-C42. C86_less_refuted: a limit one below the bound makes calls fail. |
| C87 | Saving what was loaded leaves the file as it was | proved | the first saving is exact for named networks with tables of floats; the refutations show what changes otherwise |
| C88 | The order of construction does not matter | partial | proved for both kinds of variable elimination, forward sampling and join trees in one piece; C88_tree_default_refuted shows that the join tree of the default order does depend on the order in which nodes were added (the tree of loop5 falls apart, C16) |
| C89 | Answers obey the laws of probability | proved | join trees in one piece (C16 for the others); under impossible evidence every answer is 0 (C89_impossible_refuted), which is why C89_observed asks for possible evidence |
| C90 | Reported decisions do not depend on the unit of utility | proved | decisions without observed parents (with them get_optimal_decisions raises, C34_informed_partial); C90_reported states for several decisions what C34_several_partial says, without reference to the program; C90_sign_refuted: with a < 0 the decision does change |
| C91 | Transition models of one's own | proved | any step as a function of the draws, the network, the variables, fullChange and the state; steps that change the network are not modelled, those that keep a state of their own are C93; C91_stationary asks for a fixed number of draws per step (C91_mixture for the same number in both); C91_evidence_refuted: without the condition that steps keep the evidence the claim is false; C91_unbiased is about upstream evidence and draws from a grid fine enough for the tables, as C51; C91_keys_refuted: without reads_values it is false, and without upstream evidence (C91_downstream_refuted); C91_limit_* ask that one step can reach every state, C91_limit_refuted: without it a chain may never settle |
| C92 | Answers move no further than the tables | proved | join trees in one piece; exact arithmetic (C64 for rounded); C92_absolute_refuted: with differences instead of factors the claim is false |
| C93 | Transition models with a memory | proved | memory of any type M, handed from step to step and from call to call; steps that change the network are not modelled; the two refutations are the last sentence |

## 6. Methods

- C01-C08, C10: a factor denotes a function from instantiations to numbers; every operation is shown to compute the intended function for all shapes (`NDArray` index lemmas, `FactorOps`).
- C11, C12: loop invariants against a sum over all instantiations (`Spec.v`). C12 keeps "product of the remaining buckets = partial sum".
- C14: induction over the elimination loop on the skeleton graph.
- C15-C18: messages on rooted trees with running intersection, by induction over the tree. Each call of `set_evidence`, `calculate_messages`, `reset_factors` is shown to keep an invariant, so histories of any length are covered. `create_jointree` is analysed for orders that need no fill-in; C18 holds for every order.
- C20-C26: invariants over lists of API calls, exceptions included.
- C27-C32: cumulative intervals of the draws; algebra of the acceptance ratio.
- C33-C36: invariant of generalised elimination over pairs of factors, for all iteration orders.
- C37-C41: state machine with histories of calls; filtering by induction over the evidence history.
- C43, C44, C48: structural round trip over element trees and files.
- C63-C65: the algorithms are stated once for arbitrary factor operations, so the exact and the rounded program are the same program; relative error counts are carried through the run. For C65 the rounded tree is compared clique by clique with the exact one at the same step.
- C45: refinement between factors with references and factors as values.

## 7. Experiments with wrong programs

`seeded/LOG.jsonl` records edits of the model that imitate bugs, the theorems that failed, and the theorems tightened where none did. The edits are made in a scratch copy. C29 was strengthened that way (exact acceptance rule).
