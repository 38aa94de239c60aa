{"id": "C01", "title": "Graph objects stay structurally consistent under every call history", "statement": "Starting from a constructor call, after any sequence of add_node, add_nodes, add_edge, add_edges, remove_node, remove_nodes_from and remove_edge (successful or raising) on a Graph, DiGraph or PDAG, the node list has no duplicates, node_set and node_list hold the same nodes, every neighbour reported for a node is itself a node, and u is a neighbour of v exactly when v is a neighbour of u.", "quantifier": "all finite call histories over all node names, edges, marks and overwrite flags, including calls that raise", "why_tests_cant": "The number of call histories is unbounded; a test exercises a handful of short ones.", "anchors": ["cdmir/graph/graph.py:Graph.__init__", "cdmir/graph/graph.py:Graph.add_node", "cdmir/graph/graph.py:Graph.add_edge", "cdmir/graph/graph.py:Graph.remove_node", "cdmir/graph/graph.py:Graph.remove_edge", "cdmir/graph/digraph.py:DiGraph.add_edge", "cdmir/graph/pdag.py:PDAG.add_edge"]}
{"id": "C02", "title": "Edge writes are read back exactly and disturb nothing else", "statement": "On a consistent graph and for distinct nodes u, v: after a successful add_edge(Edge(u,v,mu,mv)), get_edge(u,v) returns Edge(u,v,mu,mv), get_edge(v,u) returns Edge(v,u,mv,mu), and get_edge of every other unordered pair and the node list are unchanged; after remove_edge(u,v) the pair is disconnected and every other pair is unchanged; after remove_node(w) exactly the pairs touching w disappear.", "quantifier": "all consistent graphs, all distinct nodes, all marks, all other pairs", "why_tests_cant": "Frame conditions range over every other pair of every graph.", "anchors": ["cdmir/graph/graph.py:Graph.add_edge", "cdmir/graph/graph.py:Graph.get_edge", "cdmir/graph/graph.py:Graph.remove_edge", "cdmir/graph/graph.py:Graph.remove_node"]}
{"id": "C03", "title": "The edge listing enumerates every connected pair exactly once", "statement": "graph.edges yields one edge for each unordered connected pair of distinct nodes and nothing else, with the marks get_edge reports; number_of_edges is therefore the number of connected pairs; in a DiGraph without self-loops the in-degrees and the out-degrees each sum to number_of_edges.", "quantifier": "all consistent graphs", "why_tests_cant": "Counting identities over all graphs cannot be sampled exhaustively.", "anchors": ["cdmir/graph/graph.py:Graph.edges", "cdmir/graph/graph.py:Graph.number_of_edges", "cdmir/graph/digraph.py:DiGraph.in_degree", "cdmir/graph/digraph.py:DiGraph.out_degree"]}
{"id": "C04", "title": "A raising graph operation leaves the graph as it was", "statement": "If add_edge, remove_edge, remove_node, get_edge or is_connected raises (missing node, wrong mark, already connected), the graph object is unchanged; add_edges that raises has applied exactly the edges before the offending one.", "quantifier": "all graphs, all arguments", "why_tests_cant": "The claim quantifies over every argument that makes a call fail.", "anchors": ["cdmir/graph/graph.py:Graph.add_edge", "cdmir/graph/graph.py:Graph.add_edges", "cdmir/graph/graph.py:Graph.remove_node", "cdmir/graph/graph.py:Graph.check_missing_node", "cdmir/graph/graph.py:Graph.check_mark"]}
{"id": "C05", "title": "Directed and partially directed graphs keep their mark discipline", "statement": "In every reachable DiGraph without self-loops each connected pair carries one tail and one arrow, so exactly one of u->v, v->u holds; in every reachable PDAG every mark is a tail or an arrow, so each connected pair is undirected, directed one way, or bidirected.", "quantifier": "all call histories of DiGraph and PDAG", "why_tests_cant": "Reachable states are unboundedly many.", "anchors": ["cdmir/graph/digraph.py:DiGraph.add_edge", "cdmir/graph/pdag.py:PDAG.add_edge", "cdmir/graph/mark.py:Mark"]}
{"id": "C06", "title": "A self-loop is accepted but lost by every query", "statement": "add_edge(Edge(u,u)) on a DiGraph succeeds, yet afterwards the self-loop is not listed in edges, u is not its own parent, get_edge(u,u) does not return the edge that was added, and is_acyclic still reports True.  (The expectation that an accepted edge is read back is false for self-loops.)", "quantifier": "all consistent DiGraphs and every node of them", "why_tests_cant": "The statement is about every graph, not one example, and about a case the test suite never builds.", "anchors": ["cdmir/graph/graph.py:Graph.add_edge", "cdmir/graph/graph.py:Graph.edges", "cdmir/graph/digraph.py:DiGraph.is_acyclic"]}
{"id": "C07", "title": "The exported adjacency matrix determines the graph", "statement": "Entry [index(v), index(u)] of to_numpy() is the value of the mark at v on the edge between u and v and 0 when they are not connected; transpose=True gives the transpose; consequently graph_equal of two DiGraphs or PDAGs on the same node list is True exactly when get_edge agrees on all pairs, while for plain Graphs holding Null marks it can be True for different graphs.", "quantifier": "all consistent graphs and pairs of graphs on the same node list", "why_tests_cant": "Injectivity of an encoding is a claim about all pairs of graphs.", "anchors": ["cdmir/graph/graph.py:Graph.to_numpy", "cdmir/utils/metrics/graph_evaluation.py:graph_equal"]}
{"id": "C08", "title": "topo_sort returns a duplicate-free parents-first order", "statement": "For every DiGraph topo_sort terminates and returns distinct nodes of the graph such that whenever a returned node has a parent, that parent was returned earlier; for an acyclic DiGraph every node is returned.", "quantifier": "all consistent DiGraphs", "why_tests_cant": "Order correctness must hold for each graph and each insertion order of edges.", "anchors": ["cdmir/graph/digraph.py:DiGraph.topo_sort"]}
{"id": "C09", "title": "is_acyclic decides the absence of directed cycles", "statement": "For a DiGraph without self-loops is_acyclic() is True exactly when there is no directed cycle u1 -> u2 -> ... -> u1.", "quantifier": "all consistent DiGraphs without self-loops", "why_tests_cant": "Both directions quantify over all graphs and all cycles.", "anchors": ["cdmir/graph/digraph.py:DiGraph.is_acyclic", "cdmir/graph/digraph.py:DiGraph.topo_sort"]}
{"id": "C10", "title": "is_d_separate decides d-separation", "statement": "For nodes x, y and a collection z of nodes of a DiGraph without self-loops, is_d_separate(x,y,z) terminates without error and is False exactly when there is an active path: a path without repeated nodes from x to y whose endpoints are outside z, whose colliders are in z or have a descendant in z, and whose other interior nodes are outside z.", "quantifier": "all DiGraphs without self-loops (cyclic or not), all x, y, z", "why_tests_cant": "The definition quantifies over all paths; tests check a few queries on fixed graphs.", "anchors": ["cdmir/graph/digraph.py:DiGraph.get_reachable_nodes", "cdmir/graph/digraph.py:DiGraph.is_d_separate"]}
{"id": "C11", "title": "d-separation is symmetric and depends on z only as a set", "statement": "is_d_separate(x,y,z) = is_d_separate(y,x,z), and the answer does not change when z is permuted or has duplicates; the answer is always True when x or y is in z.", "quantifier": "all DiGraphs without self-loops, all x, y, z", "why_tests_cant": "Symmetry over all graphs and conditioning sets is not testable exhaustively.", "anchors": ["cdmir/graph/digraph.py:DiGraph.is_d_separate"]}
{"id": "C12", "title": "d-separation agrees with adjacency in DAGs", "statement": "In a DiGraph, adjacent nodes are not d-separated by any set avoiding them; in an acyclic DiGraph two non-adjacent nodes are d-separated by the parents of one of them, in particular by some set of at most n-2 other nodes.", "quantifier": "all (acyclic) DiGraphs, all pairs, all conditioning sets", "why_tests_cant": "A universally quantified graph-theoretic fact used by every constraint-based search.", "anchors": ["cdmir/graph/digraph.py:DiGraph.is_d_separate", "cdmir/graph/dag2cpdag.py:dag2cpdag"]}
{"id": "C13", "title": "dag2cpdag keeps the skeleton and orients the v-structures of its input", "statement": "For every acyclic DiGraph, dag2cpdag terminates, returns a graph on the same node list with the same connected pairs, in which for every u->w<-v of the input with u, v not adjacent both edges are directed into w; before the Meek rules run these are the only directed edges.", "quantifier": "all acyclic DiGraphs and all iteration orders of the node set", "why_tests_cant": "All DAGs of all sizes; the iteration order of a Python set is also not controlled by tests.", "anchors": ["cdmir/graph/dag2cpdag.py:dag2cpdag", "cdmir/graph/pdag.py:PDAG.rule0"]}
{"id": "C14", "title": "dag2cpdag gives one answer per Markov equivalence class", "statement": "Two acyclic DiGraphs on the same node list with the same skeleton and the same v-structures are mapped by dag2cpdag to equal graphs.", "quantifier": "all pairs of acyclic DiGraphs", "why_tests_cant": "Relational property over pairs of inputs.", "anchors": ["cdmir/graph/dag2cpdag.py:dag2cpdag"]}
{"id": "C15", "title": "dag2cpdag returns the completed PDAG (essential graph)", "statement": "Claim: an edge of dag2cpdag(D) is directed u->v exactly when u->v in every acyclic DiGraph with the skeleton and v-structures of D.  (The claim is false of the code in general: a six-node DAG is mapped to a graph with an arrow opposite to the DAG; it is proved for all DAGs in which no edge lies in two triangles.)", "quantifier": "all acyclic DiGraphs", "why_tests_cant": "The definition quantifies over all equivalent DAGs; the existing test compares two computations that share the defect.", "anchors": ["cdmir/graph/dag2cpdag.py:dag2cpdag", "cdmir/graph/pdag.py:PDAG.rule3", "cdmir/graph/pdag.py:PDAG.rule4"]}
{"id": "C16", "title": "Meek orientation terminates and only orients undirected edges", "statement": "On every PDAG orient_by_meek_rules terminates, keeps nodes and connected pairs, never changes an edge that already carries an arrow, and stops in a state where none of the four rules applies.", "quantifier": "all PDAGs", "why_tests_cant": "A while loop over all graphs; tests only show it stops on their inputs.", "anchors": ["cdmir/graph/pdag.py:PDAG.orient_by_meek_rules", "cdmir/graph/pdag.py:PDAG.rule1", "cdmir/graph/pdag.py:PDAG.rule2", "cdmir/graph/pdag.py:PDAG.rule3", "cdmir/graph/pdag.py:PDAG.rule4"]}
{"id": "C17", "title": "Each orientation rule is sound for consistent extensions", "statement": "Claim: if an acyclic DiGraph D is a consistent extension of a PDAG (same skeleton, same directed edges, no v-structure that the PDAG does not have) then D is still a consistent extension after the rule runs.  Proved for rule1 and rule2; refuted for rule3 (missing non-adjacency check) and rule4 with witnesses; rule3 is proved under the missing check.", "quantifier": "all PDAGs and all consistent extensions", "why_tests_cant": "Soundness ranges over all graphs and all of their extensions.", "anchors": ["cdmir/graph/pdag.py:PDAG.rule1", "cdmir/graph/pdag.py:PDAG.rule2", "cdmir/graph/pdag.py:PDAG.rule3", "cdmir/graph/pdag.py:PDAG.rule4"]}
{"id": "C18", "title": "pdag2dag returns a consistent extension whenever it returns", "statement": "If pdag2dag returns on a PDAG without bidirected edges, the result is an acyclic DiGraph on the same nodes with the same connected pairs, it contains every directed edge of the input, and each of its v-structures is already directed in the input.", "quantifier": "all PDAGs without bidirected edges and self-loops", "why_tests_cant": "All PDAGs; the defining property speaks of all cycles and all v-structures.", "anchors": ["cdmir/graph/pdag2dag.py:pdag2dag", "cdmir/graph/pdag2dag.py:check2"]}
{"id": "C19", "title": "pdag2dag returns exactly when a consistent extension exists", "statement": "pdag2dag terminates on a PDAG without bidirected edges if and only if the PDAG has a consistent extension to an acyclic DiGraph; otherwise it loops forever (there is no error exit).", "quantifier": "all PDAGs without bidirected edges and self-loops", "why_tests_cant": "Non-termination cannot be observed by a test, and completeness quantifies over all extensions.", "anchors": ["cdmir/graph/pdag2dag.py:pdag2dag"]}
{"id": "C20", "title": "Constraint-based skeleton search removes exactly the edges some test accepted", "statement": "For every independence test, adjacency_search terminates with an undirected graph and a symmetric sep_set table; a pair is disconnected in the result exactly when some test of that pair performed during the search returned p >= alpha, and every member of the recorded separating set of a pair comes from a conditioning set that was accepted for that pair and never contains the pair itself.", "quantifier": "all variable lists, all test functions, all alpha", "why_tests_cant": "The test outcomes are arbitrary; there are doubly exponentially many outcome patterns.", "anchors": ["cdmir/discovery/constraint/adjacency_search.py:adjacency_search"]}
{"id": "C21", "title": "adjacency_search is independent of the variable order", "statement": "If the independence test is symmetric in its two variables and depends on the conditioning set only as a set, running adjacency_search on any permutation of the variables yields the same skeleton and the same separating sets.", "quantifier": "all variable lists, all permutations, all test functions", "why_tests_cant": "Order independence is a relation between all permuted runs.", "anchors": ["cdmir/discovery/constraint/adjacency_search.py:adjacency_search"]}
{"id": "C22", "title": "PC with perfect independence information recovers the true skeleton", "statement": "With the Dsep test of an acyclic DiGraph (and any alpha in (0,1]) both adjacency_search and fast_adjacency_search return exactly the skeleton of the DiGraph, and for every non-adjacent u, v with common neighbour w, w is in the separating set exactly when u-w-v is not a collider.", "quantifier": "all acyclic DiGraphs, all alpha in (0,1]", "why_tests_cant": "All DAGs of every size.", "anchors": ["cdmir/discovery/constraint/adjacency_search.py:adjacency_search", "cdmir/discovery/constraint/adjacency_search.py:fast_adjacency_search", "cdmir/utils/independence/dsep.py:Dsep"]}
{"id": "C23", "title": "PC with a d-separation oracle equals dag2cpdag", "statement": "PC().fit with the Dsep test of an acyclic DiGraph D produces a causal_graph for which graph_equal(causal_graph, dag2cpdag(D)) is True, for either adjacency search.", "quantifier": "all acyclic DiGraphs", "why_tests_cant": "The project's own test samples random graphs; the claim is about all of them.", "anchors": ["cdmir/discovery/constraint/pc.py:PC.fit", "cdmir/graph/dag2cpdag.py:dag2cpdag"]}
{"id": "C24", "title": "PC orientation never changes the skeleton it reports", "statement": "For every independence test, after PC.fit the causal_graph and the skeleton have the same nodes and the same connected pairs, every edge of skeleton is undirected, and the causal graph contains no bidirected edge.", "quantifier": "all variable lists, all test functions, all alpha, either search", "why_tests_cant": "Arbitrary (also inconsistent) test outcomes must be covered.", "anchors": ["cdmir/discovery/constraint/pc.py:PC.fit", "cdmir/graph/pdag.py:PDAG.rule0", "cdmir/graph/pdag.py:PDAG.orient_by_meek_rules"]}
{"id": "C25", "title": "The independence-test cache is transparent", "statement": "For a statistic that is symmetric in x and y and depends on z only as a multiset, after any history of itest calls every call returns exactly what calculating the statistic afresh would return, i.e. two queries share a cache entry only if they are the same query up to swapping x, y and permuting z.", "quantifier": "all query histories, all integer ids, all symmetric statistics", "why_tests_cant": "Cache correctness is a property of all histories and needs injectivity of the key text for all integers.", "anchors": ["cdmir/utils/independence/basic_independence.py:_get_cache_key", "cdmir/utils/independence/basic_independence.py:ConditionalIndependentTest.itest"]}
{"id": "C26", "title": "Structural Hamming distance is a metric", "statement": "On graphs of one class over one node list shd is 0 exactly when every pair carries the same edge, is symmetric, satisfies the triangle inequality, is bounded by n(n-1)/2, and changes by at most one when a single pair is edited.", "quantifier": "all triples of graphs on one node list", "why_tests_cant": "Metric laws range over all triples of graphs.", "anchors": ["cdmir/utils/metrics/graph_evaluation.py:shd"]}
{"id": "C27", "title": "Precision, recall and F1 of the graph evaluations are coherent", "statement": "For skeleton, arrow and directed-edge evaluation on graphs of one class over one node list: all three numbers lie in [0,1]; swapping the two graphs swaps precision and recall and keeps F1; comparing a graph with itself gives 1 for all three whenever it has a positive item; precision*|est| = recall*|true| = number of common items.", "quantifier": "all pairs of graphs on one node list", "why_tests_cant": "Algebraic relations over all inputs.", "anchors": ["cdmir/utils/metrics/graph_evaluation.py:skeleton_evaluation", "cdmir/utils/metrics/graph_evaluation.py:arrow_evaluation", "cdmir/utils/metrics/graph_evaluation.py:directed_edge_evaluation"]}
{"id": "C28", "title": "GES enumerates every subset and recognises cliques", "statement": "Combinatorial(T0) lists every subset of T0 exactly once; find_subset_include marks exactly the listed sets that contain the given set; check_clique(G,S) is 1 exactly when all distinct members of S are pairwise connected.", "quantifier": "all lists T0, all PDAGs, all S", "why_tests_cant": "All subsets of all sets.", "anchors": ["cdmir/discovery/score_based/greedy_equivalence_search.py:Combinatorial", "cdmir/discovery/score_based/greedy_equivalence_search.py:find_subset_include", "cdmir/discovery/score_based/greedy_equivalence_search.py:check_clique"]}
{"id": "C29", "title": "GES path condition is decided exactly", "statement": "Insert_vC2_new(G,j,i,NAT) terminates and returns 1 exactly when every semi-directed path from j to i (each step along an arrow or an undirected edge) contains a node of NAT other than i itself.", "quantifier": "all PDAGs without self-loops, all i, j, NAT", "why_tests_cant": "Quantifies over all paths of all graphs.", "anchors": ["cdmir/discovery/score_based/greedy_equivalence_search.py:Insert_vC2_new"]}
{"id": "C30", "title": "GES pruning of operator subsets is exact", "statement": "The forward scan of one pair evaluates exactly those subsets T for which both Insert conditions hold, and the backward scan exactly those H for which the Delete condition holds: the skip table never hides a valid operator and never admits an invalid one.", "quantifier": "all PDAGs, all pairs, all subsets", "why_tests_cant": "The pruning interacts with the enumeration order; all graphs must be covered.", "anchors": ["cdmir/discovery/score_based/greedy_equivalence_search.py:GES.fit", "cdmir/discovery/score_based/greedy_equivalence_search.py:Insert_validity_test1", "cdmir/discovery/score_based/greedy_equivalence_search.py:Insert_validity_test2", "cdmir/discovery/score_based/greedy_equivalence_search.py:Delete_validity_test"]}
{"id": "C31", "title": "GES operator scores are exact despite the memo table", "statement": "If the local score depends on the parent list only as a set, Insert_changed_score and Delete_changed_score return the difference of the two local scores of the operator for every memo table built by earlier calls, and the memo table stays correct.", "quantifier": "all call histories, all graphs, all set-determined score functions", "why_tests_cant": "Memo correctness is a property of histories.", "anchors": ["cdmir/discovery/score_based/greedy_equivalence_search.py:Insert_changed_score", "cdmir/discovery/score_based/greedy_equivalence_search.py:Delete_changed_score"]}
{"id": "C32", "title": "Each GES step changes the skeleton by exactly one edge and the search stops", "statement": "Every accepted forward step adds exactly one connected pair, every accepted backward step removes exactly one, so (as long as each pdag2dag call returns) fit finishes after at most n(n-1)/2 forward and n(n-1)/2 backward steps.  (Without that proviso the claim is false: for a concrete score on seven variables fit never returns, because dag2cpdag produced a directed cycle.)", "quantifier": "all score functions, all var counts", "why_tests_cant": "Termination for every score function cannot be tested.", "anchors": ["cdmir/discovery/score_based/greedy_equivalence_search.py:GES.fit", "cdmir/discovery/score_based/greedy_equivalence_search.py:Insert", "cdmir/discovery/score_based/greedy_equivalence_search.py:Delete"]}
{"id": "C33", "title": "GES score is the sum of the accepted gains, grows strictly, and ends at a local optimum", "statement": "The reported score is the initial score plus the gains of the accepted steps, each accepted gain is positive and maximal among the valid operators of that state, and when the search stops no valid backward operator of the final graph has a positive gain.", "quantifier": "all score functions", "why_tests_cant": "All runs of a search driven by an arbitrary score.", "anchors": ["cdmir/discovery/score_based/greedy_equivalence_search.py:GES.fit"]}
{"id": "C34", "title": "SHP hill climbing is monotone, acyclic and locally optimal", "statement": "Given a deterministic score that is -infinity on cyclic graphs, the structure search of SHP only moves to strictly better graphs, each move changes one or two entries of the edge matrix by adding, deleting or reversing one edge, it stops at a graph none of whose one-step neighbours is better, and a finite start score implies that every visited graph is acyclic.", "quantifier": "all scores, all start graphs, all matrix sizes", "why_tests_cant": "Arbitrary score landscapes.", "anchors": ["cdmir/discovery/point_process/SHP.py:SHP"]}
{"id": "C35", "title": "The acyclicity test of SHP is exact", "statement": "check_DAG(edge_mat) is True exactly when the graph of the off-diagonal entries has no directed cycle.", "quantifier": "all square 0/1 matrices", "why_tests_cant": "All matrices of all sizes.", "anchors": ["cdmir/discovery/point_process/SHP.py:SHP.check_DAG"]}
{"id": "C36", "title": "Linear simulation solves its structural equations", "statement": "For every acyclic weight matrix and every noise draw, each column of the simulated linear data equals the weighted sum of its parent columns plus its own noise column.", "quantifier": "all acyclic weight matrices, all noise values, all sample sizes", "why_tests_cant": "The equation must hold for every draw; tests look at shapes or one seed.", "anchors": ["cdmir/datasets/simlulators.py:IIDSimulator.simulate_linear_anm"]}
{"id": "C37", "title": "Time-lag simulation obeys its recurrence", "statement": "The simulated series has length max_lag + length, starts with the initial values, and every later row equals the sum over lags of the corresponding earlier row times its weight matrix plus the noise row.", "quantifier": "all lengths, lags, weights and noise values", "why_tests_cant": "Unbounded length and arbitrary values.", "anchors": ["cdmir/datasets/simlulators.py:TimeLagSimulator"]}
{"id": "C38", "title": "Post-nonlinear simulation has constant non-root columns", "statement": "In IIDSimulator.simulate_pnl every variable with at least one parent gets the same value in every sample (the mixing function's output is summed over all samples), contrary to the expectation that samples vary.", "quantifier": "all graphs, function choices, noise draws and sample sizes", "why_tests_cant": "The statement covers every parameter choice and draw.", "anchors": ["cdmir/datasets/simlulators.py:IIDSimulator.simulate_pnl"]}
{"id": "C39", "title": "Random graph generation yields acyclic graphs with the sampled number of edges", "statement": "For every undirected 0/1 matrix and every pair of permutations drawn, _random_acyclic_orientation followed by _random_permutation returns an acyclic matrix with exactly one direction per undirected edge; the Hawkes simulator's random edge matrix is acyclic and has the requested number of edges (all n(n-1)/2 pairs when more are requested).", "quantifier": "all matrices and all random draws", "why_tests_cant": "Must hold for every random draw.", "anchors": ["cdmir/datasets/utils.py:erdos_renyi", "cdmir/datasets/utils.py:_random_acyclic_orientation", "cdmir/datasets/simlulators.py:HawkesSimulator"]}
{"id": "C40", "title": "Cluster merging computes the transitive overlap closure", "statement": "merge_list returns pairwise disjoint clusters covering exactly the input variables, and two input clusters end up in the same output cluster exactly when they are linked by a chain of overlapping input clusters.", "quantifier": "all lists of clusters", "why_tests_cant": "Transitive closure over arbitrary inputs.", "anchors": ["cdmir/discovery/funtional_based/LearningHierarchicalStructure/Overlap_Merge.py:merge_list"]}
{"id": "C41", "title": "The hierarchical learner's data update keeps columns and names together", "statement": "Claim: after UpdataData the column named n holds the data of variable n.  The claim is false: whenever both a latent and a remaining column exist, columns are concatenated latents first but named remaining first.", "quantifier": "all data frames and latent indices", "why_tests_cant": "The claim is universal; the refutation exhibits the mislabelling for a whole class of inputs.", "anchors": ["cdmir/discovery/funtional_based/LearningHierarchicalStructure/UpdataData.py:UpdataData"]}
{"id": "C42", "title": "Causal ordering of clusters is a permutation", "statement": "LearnCausalOrder returns every input cluster exactly once, whatever the outcome of the independence tests.", "quantifier": "all cluster lists, all test outcomes", "why_tests_cant": "Arbitrary outcomes of the statistical test.", "anchors": ["cdmir/discovery/funtional_based/LearningHierarchicalStructure/Infer_Causal_Order.py:LearnCausalOrder"]}
{"id": "C43", "title": "ICA-LiNGAM always returns a graph compatible with the column order", "statement": "Whatever the data, the unmixing matrix and the Wald outcomes, the causal graph returned by ICA_LINGAM.fit has nonzero entries only strictly below the diagonal (hence is acyclic, and can never contain an edge from a later to an earlier column), and it does not depend on the wald_alpha setting.", "quantifier": "all data, all unmixing matrices, all settings", "why_tests_cant": "All data sets.", "anchors": ["cdmir/discovery/funtional_based/lingam_based/ica_lingam.py:ICA_LINGAM.fit"]}
{"id": "C44", "title": "The continuous acyclicity penalty vanishes exactly on acyclic weight matrices", "statement": "For exact arithmetic the penalty h(W) = tr((I + W*W/d)^d) - d used by the linear and nonlinear score-based learners is nonnegative, and it is 0 exactly when the weighted graph of W has no directed cycle.", "quantifier": "all real (rational) square matrices", "why_tests_cant": "All matrices of all sizes.", "anchors": ["cdmir/discovery/score_based/entropy_based/entropy_based_discovery/linear.py:notears_linear", "cdmir/discovery/score_based/entropy_based/entropy_based_discovery/nonlinear.py:NotearsMLP.h_func"]}
{"id": "C45", "title": "Kernel centering equals double centering exactly for symmetric kernels", "statement": "For a symmetric kernel matrix center_kernel_matrix returns H K H (all rows and columns sum to zero); for non-symmetric matrices it generally does not.", "quantifier": "all symmetric matrices of all sizes", "why_tests_cant": "Algebraic identity over all matrices.", "anchors": ["cdmir/utils/kernel/_base.py:center_kernel_matrix"]}
{"id": "C46", "title": "dist2 returns squared Euclidean distances", "statement": "In exact arithmetic entry (i,j) of dist2(x,c) is the squared distance between row i of x and row j of c, so the clamp of negative entries never changes a value; arguments of different width raise.", "quantifier": "all matrices", "why_tests_cant": "Identity over all real inputs.", "anchors": ["cdmir/discovery/score_based/greedy_equivalence_search.py:dist2"]}
{"id": "C47", "title": "Plotting a graph with an edge between non-string nodes fails", "statement": "Claim: plot_graph draws every graph.  False: layouts are keyed by the text of a node while edges are looked up by the node itself, so every graph with an edge at a non-string node raises KeyError; for string nodes every lookup succeeds.", "quantifier": "all graphs with string or integer node names", "why_tests_cant": "Class of inputs never exercised by the tests.", "anchors": ["cdmir/visual/plot_graph.py:plot_graph", "cdmir/visual/graph_layout.py:circular_layout"]}
{"id": "C48", "title": "Kernel matrix caching is not transparent", "statement": "Claim: calling a kernel object twice returns the kernel matrix of its arguments.  False for arrays with more than 1000 elements: the cache key is the abbreviated text of the arrays, so two different arrays that agree in the printed corner entries share a cache entry.", "quantifier": "all call histories of a kernel object", "why_tests_cant": "Depends on unbounded array sizes and on histories.", "anchors": ["cdmir/utils/kernel/_base.py:BaseKernel"]}
{"id": "C49", "title": "count_accuracy rates are bounded and exact on a perfect estimate", "statement": "For 0/1 estimates that are DAGs, fdr, tpr lie in [0,1], a perfect estimate gives tpr 1, fdr 0 and shd 0; for estimates mixing -1 and 1 on one pair, which the input check accepts, tpr can exceed 1.", "quantifier": "all pairs of matrices", "why_tests_cant": "All pairs of matrices of all sizes.", "anchors": ["cdmir/discovery/score_based/entropy_based/entropy_based_discovery/utils.py:count_accuracy"]}
{"id": "C50", "title": "GES operators edit exactly the edges they are defined to edit", "statement": "Insert(G,i,j,T) makes i and every member of T a parent of j and leaves every other pair as it was; Delete(G,i,j,H) removes the edge between i and j, makes i and j parents of every member of H and leaves every other pair as it was.", "quantifier": "all PDAGs, all i, j, T, H", "why_tests_cant": "The frame condition ranges over every pair of every graph.", "anchors": ["cdmir/discovery/score_based/greedy_equivalence_search.py:Insert", "cdmir/discovery/score_based/greedy_equivalence_search.py:Delete"]}
{"id": "C51", "title": "SHP cannot search with its default time interval", "statement": "With time_interval=None, the default of the SHP constructor, EM raises TypeError for every acyclic graph with an edge, so that Hill_Climb from the default empty structure raises TypeError for every data set with at least two event types.", "quantifier": "all data sets, all numbers of event types from two on, all random draws", "why_tests_cant": "A test shows the failure on one data set; the claim is that no data set succeeds.", "anchors": ["cdmir/discovery/point_process/SHP.py:SHP.EM", "cdmir/discovery/point_process/SHP.py:SHP.Hill_Climb"]}
{"id": "C52", "title": "Nonlinear simulation solves its structural equations, but ignores func_type", "statement": "For every acyclic matrix and every draw, IIDSimulator.simulate_nonlinear_anm gives each variable without parents its noise and each other variable a two-layer network of its parent columns plus its noise. The parameter func_type has no effect: 'mim' yields the 'mlp' data, and the documented 'mim' equations fail.", "quantifier": "all acyclic matrices, noise values, weights and sample sizes", "why_tests_cant": "The equation must hold for every draw, and a test that only looks at the shape of the data cannot see that func_type is dropped.", "anchors": ["cdmir/datasets/simlulators.py:IIDSimulator.simulate_nonlinear_anm"]}
{"id": "C53", "title": "Nonlinear time-lag simulation follows a recurrence that changes over time", "statement": "Every row after the initial ones is a function of the parents in the preceding max_lag rows plus noise; the function's weights are drawn anew in each step, so the process has no fixed structural function: a variable without parents and without noise is not constant.", "quantifier": "all lengths, lags, adjacency matrices, weights and noise values", "why_tests_cant": "Unbounded length and arbitrary draws.", "anchors": ["cdmir/datasets/simlulators.py:TimeLagSimulator.simulate_nonlinear_anm"]}
{"id": "C54", "title": "Options of the post-nonlinear simulators that do not do what they say", "statement": "The accepted function name 'cos' acts as 'linear'; the time-lag version fails for its default length; a layer list that starts with an activation and contains 'linear' later passes the checks but fails whenever the hidden size differs from a variable's number of parents.", "quantifier": "all graphs, draws and remaining parameters", "why_tests_cant": "The failure depends on a combination of parameters and holds for every graph.", "anchors": ["cdmir/datasets/simlulators.py:_pnl_func", "cdmir/datasets/simlulators.py:_pnl_func_sequential", "cdmir/datasets/simlulators.py:TimeLagSimulator.simulate_pnl"]}
{"id": "C55", "title": "Observed representative of a latent variable", "statement": "GetObservedForLatent ends for every latent index whose latents have members of smaller rank, and returns the variable reached by repeatedly taking the first member; the search for an observed member has no effect, so an observed direct member is not preferred.", "quantifier": "all latent indices", "why_tests_cant": "Arbitrarily deep hierarchies; the dead branch never fails visibly.", "anchors": ["cdmir/discovery/funtional_based/LearningHierarchicalStructure/UpdataData.py:GetObservedForLatent"]}
{"id": "C56", "title": "Structure of the clusters found by the tetrad search", "statement": "FindCausalCluster always ends; first-phase clusters are the disjoint overlap closure of the accepted pairs and are entered as pure or impure exactly once; second-phase clusters pass the same test, have at least three members and avoid first-phase clusters.  The claim that all clusters found are disjoint is false: two clusters of the same size of the second phase can overlap.", "quantifier": "all data frames, all test outcomes, all set iteration orders", "why_tests_cant": "Depends on arbitrary test outcomes and iteration orders.", "anchors": ["cdmir/discovery/funtional_based/LearningHierarchicalStructure/FindCausalCluster.py:FindCausalCluster", "cdmir/discovery/funtional_based/LearningHierarchicalStructure/TetradMethod.py:CheckCausalCluster"]}
{"id": "C57", "title": "Row order of the unmixing matrix is chosen from the data", "statement": "Claim: ICA-LiNGAM reorders the rows of the unmixing matrix so that the diagonal has no zero when this is possible.  False when W has exact zeros: 0 * inf makes the score of an order not a number, argmin takes the first such order, and as soon as one row has two zeros the choice ignores the data altogether.", "quantifier": "all unmixing matrices with two zeros in a row, all enumeration orders", "why_tests_cant": "Depends on the unspecified enumeration order of a set and on floating-point special values.", "anchors": ["cdmir/discovery/funtional_based/lingam_based/ica_lingam.py:find_W_wave"]}
{"id": "C58", "title": "The acyclicity gradient is the derivative of the penalty", "statement": "The matrix G_h = 2 E^T * W that notears_linear passes to the optimiser is the gradient of h(W): along every direction V the difference h(W + tV) - h(W) - t <G_h, V> is bounded by a constant times t^2.", "quantifier": "all sizes d >= 1, all rational matrices W and directions V", "why_tests_cant": "Finite differences at sample points cannot establish a derivative for all matrices and sizes.", "anchors": ["cdmir/discovery/score_based/entropy_based/entropy_based_discovery/linear.py:notears_linear"]}
{"id": "C59", "title": "What notears_linear guarantees about its result", "statement": "For rho_max > 1 and any optimiser behaviour notears_linear finishes; each entry of its result is 0 or at least w_threshold in absolute value, and the diagonal is 0 if the optimiser respects its bounds. For rho_max <= 1 it raises TypeError. The result need not be acyclic, even with the default tolerance and threshold; it is acyclic when the penalty is exactly 0.", "quantifier": "all optimiser behaviours, sizes and parameters", "why_tests_cant": "The optimiser's output is an arbitrary function of its inputs; tests see one run.", "anchors": ["cdmir/discovery/score_based/entropy_based/entropy_based_discovery/linear.py:notears_linear"]}
{"id": "C60", "title": "The local-score copy of dist2 needs matrix objects", "statement": "score_utils.dist2 returns squared distances for numpy.matrix arguments and for single-column arrays. For plain arrays with more columns it uses an elementwise product: it raises unless the shapes happen to broadcast, and returns wrong numbers for square arguments.", "quantifier": "all arrays of all shapes", "why_tests_cant": "The type of the argument silently selects a different operation; the claim ranges over all shapes and values.", "anchors": ["cdmir/utils/local_score/score_utils.py:dist2"]}
{"id": "C61", "title": "The unconditional kernel statistic with linear kernels measures correlation", "statement": "With linear kernels the unconditional KCI statistic is the sum of squared cross moments of the centered columns; it is nonnegative, symmetric in x and y, and 0 exactly when all columns are uncorrelated.", "quantifier": "all data sets with at least one sample", "why_tests_cant": "Algebraic identity over all data sets of all sizes.", "anchors": ["cdmir/utils/independence/kernel_based.py:KCI", "cdmir/utils/kernel/linear.py:LinearKernel"]}
{"id": "C62", "title": "Converting a DAG to a PDAG and back yields an equivalent DAG", "statement": "Claim: for every acyclic DiGraph D, pdag2dag(dag2cpdag(D)) returns an acyclic DiGraph with the nodes, skeleton and v-structures of D.  Proved whenever dag2cpdag reversed no arrow of D, in particular whenever no edge lies in two triangles; refuted in general: for a seven-node DAG the PDAG has a directed cycle and pdag2dag never returns, for a six-node DAG it returns a DAG that is not equivalent.", "quantifier": "all acyclic DiGraphs, all iteration orders of the node set, all loop bounds", "why_tests_cant": "Non-termination cannot be observed by a test, and all DAGs with up to five nodes behave well; the smallest failures need six and seven nodes.", "anchors": ["cdmir/graph/dag2cpdag.py:dag2cpdag", "cdmir/graph/pdag2dag.py:pdag2dag", "cdmir/graph/pdag.py:PDAG.rule3", "cdmir/graph/pdag.py:PDAG.rule4"]}
{"id": "C63", "title": "get_performance rates matrices, not graph objects", "statement": "For a square 0/1 truth matrix and a square estimate get_performance returns precision, recall and F1 of the cells whose absolute value exceeds the threshold (without the diagonal when drop_diag is set); with a negative threshold every cell counts as predicted, the dropped diagonal included.  With a Graph object as truth that has a tail anywhere (every DiGraph with an edge) it always raises ValueError, and a Graph object as estimate is reduced to its skeleton, so that reversing edges does not change the scores.", "quantifier": "all square rational matrices, all DiGraph and PDAG objects, all thresholds, both settings of drop_diag", "why_tests_cant": "The statement ranges over all matrices, thresholds and graphs; a test with one matrix does not show that graph objects never work as truth.", "anchors": ["cdmir/utils/metrics/graph_evaluation.py:get_performance", "cdmir/graph/graph.py:Graph.to_numpy"]}
{"id": "C64", "title": "Caches of local scores and of the kernel tests are transparent", "statement": "After any history of calls, a local score object answers every call with parents given as list, tuple or set exactly as if it computed the score afresh, and so does a BaseConditionalIndependenceTest for arguments that name the variables uniformly, provided the hashes of the key texts do not collide; variables may be given by name or by number. With iterators as parents the cache can return the score of other parents, and in a list that mixes numbers and names the names are not resolved.", "quantifier": "all histories, all integer ids, all column names, all score and test functions, all hash functions without collision on the asked texts", "why_tests_cant": "Transparency ranges over all histories and needs that the key text determines the query for all integers and container types.", "anchors": ["cdmir/utils/local_score/_base.py:BaseLocalScoreFunction._score", "cdmir/utils/independence/_base.py:BaseConditionalIndependenceTest._compute_p_value", "cdmir/utils/independence/_base.py:BaseConditionalIndependenceTest.__input_to_list"]}
{"id": "C65", "title": "The BIC score is score equivalent", "statement": "For every non-degenerate correlation matrix, every sample count and penalty, two DAGs with the same skeleton and v-structures (Markov equivalent) get exactly the same total BIC score, whatever the order in which parents are listed.", "quantifier": "all numbers of variables, all symmetric positive definite correlation matrices, all pairs of Markov equivalent DAGs, all orders of the parents", "why_tests_cant": "Score equivalence is a statement about all equivalent DAGs and all data; a test compares single pairs up to rounding.", "anchors": ["cdmir/utils/local_score/bic_score.py:BICScore._score_function", "cdmir/discovery/score_based/greedy_equivalence_search.py:Score_G"]}
{"id": "C66", "title": "The BDeu score cannot score any DAG", "statement": "Since every DAG has a variable without parents and grouping by no column raises ValueError, the total BDeu score of every DAG raises; for non-empty parent sets the local score does not depend on the order of the parents and gives the two directions of a covered edge the same total, for any log-gamma function.", "quantifier": "all data sets, priors, DAGs, covered edges and log-gamma functions", "why_tests_cant": "A test shows the exception on one DAG and equality up to rounding on one edge.", "anchors": ["cdmir/utils/local_score/bdeu_score.py:BDeuScore._score_function"]}
{"id": "C67", "title": "The gain of a GES operator is the true score difference", "statement": "If the current graph is the essential graph of a DAG, the score depends only on parent sets and does not tell Markov equivalent DAGs apart, then every valid Insert or Delete operator can be applied, leads to a PDAG that has a consistent extension, pdag2dag finds one, and the total score of every consistent extension of the result is the total score of the DAG before plus exactly the number that Insert_changed_score / Delete_changed_score computed from two local scores.", "quantifier": "all numbers of variables, DAGs, essential graphs, score equivalent decomposable scores, valid operators and consistent extensions", "why_tests_cant": "It is the correctness theorem of the search (Chickering 2002, theorems 15 and 17): it compares a local number with a sum over all variables in all DAGs of an equivalence class.", "anchors": ["cdmir/discovery/score_based/greedy_equivalence_search.py:Insert", "cdmir/discovery/score_based/greedy_equivalence_search.py:Delete", "cdmir/discovery/score_based/greedy_equivalence_search.py:Insert_changed_score", "cdmir/discovery/score_based/greedy_equivalence_search.py:Delete_changed_score"]}
{"id": "C68", "title": "The score reported by GES is the score of the returned graph", "statement": "For a score equivalent score the fitted graph is the essential graph of a DAG, and the reported score is the total score of every DAG that the fitted graph stands for. False because dag2cpdag can direct non-compelled edges: there is a score equivalent score on six variables (a rounded large-sample Gaussian BIC) where the reported score is larger than the score of every DAG the returned graph stands for. True whenever every conversion on the way is right, always for at most three variables; and a search that never returns has made a wrong conversion before.", "quantifier": "all score equivalent scores, numbers of variables, bounds on parents and set iteration orders", "why_tests_cant": "The equality must hold along every greedy trajectory; the failures need at least six variables and a particular class of dense graphs.", "anchors": ["cdmir/discovery/score_based/greedy_equivalence_search.py:GES.fit", "cdmir/graph/dag2cpdag.py:dag2cpdag", "cdmir/graph/pdag2dag.py:pdag2dag"]}
{"id": "C69", "title": "The Fisher-z test measures partial correlation", "statement": "For a correlation matrix without degeneracy fisherz_from_corr returns as statistic the partial correlation of x and y given z: the correlation of the residuals of the least-squares regressions of x and of y on z. It is the only number with this property and lies strictly between -1 and 1. The p-value is Fisher's normal approximation of it: between 0 and 1, equal to 1 exactly when the partial correlation vanishes, and falling as its absolute value grows (up to the cap 0.9999999). The answer does not depend on the order of x and y or of z, so that the cache, whose key forgets these orders, never changes an answer. With exactly |z|+3 records every p-value is 1, with fewer it is NaN.", "quantifier": "all numbers of variables, positive definite correlation matrices, variables, conditioning sets, record counts and histories of cached queries", "why_tests_cant": "The statement that an entry of an inverse matrix is a residual correlation is linear algebra over all matrices of all sizes; cache transparency ranges over all histories.", "anchors": ["cdmir/utils/independence/functional/fisherz.py:fisherz_from_corr", "cdmir/utils/independence/fisherz.py:FisherZ.cal_stats", "cdmir/utils/independence/basic_independence.py:ConditionalIndependentTest.itest"]}
{"id": "C70", "title": "The kernel independence test depends only on the samples", "statement": "The p-value and the statistic of KCI.test do not change when the two variables are exchanged, when any column is measured in other units (shifted and multiplied by a non-zero, possibly negative number), or when the samples of both variables are reordered in the same way. The statistic is never negative. If one variable is constant the statistic is 0 and the p-value is NaN, so that no comparison with a significance level accepts independence.", "quantifier": "all sample sizes, numbers of columns, data, changes of units, permutations of the samples and distribution functions", "why_tests_cant": "The invariances hold for uncountably many data sets and changes of units; a test compares finitely many up to rounding.", "anchors": ["cdmir/utils/independence/functional/kci.py:KCI.test", "cdmir/utils/independence/functional/kci.py:KCI._gaussian_kernel", "cdmir/utils/independence/functional/kci.py:KCI._gamma_approx_pvalue"]}
{"id": "C71", "title": "What the first stage of olc decides", "statement": "The first stage of olc is meant to find single parents by regressing x on y and testing the residual against y. Only the intercept is subtracted, not the prediction. Therefore, whatever the regression finds, the stage ends after at most two passes with an arrow from the later to the earlier column exactly for the pairs whose two original columns the kernel test accepts as independent, and leaves all other pairs undecided. If the columns are given in the opposite order every arrow is reversed: the direction carries no information about the data.", "quantifier": "all numbers of variables and samples, data, significance levels, regression results and gamma distribution functions", "why_tests_cant": "It relates all passes of the loop, with columns overwritten on the way, to independence tests of the original data, for every data set and every regression.", "anchors": ["cdmir/discovery/funtional_based/one_component/olc.py:olc", "cdmir/discovery/funtional_based/one_component/olc.py:normalize", "cdmir/utils/independence/functional/kci.py:KCI.test"]}
{"id": "C72", "title": "The second stage of olc does nothing at the usual levels", "statement": "For a significance level above 1e-5 and at most 0.05 (the default), Fisher's combination of any non-empty list of p-values that are all below the level, clipped at 1e-5 and with NaN counted as 1e-5, is below the level. The second stage combines exactly such p-values, so it never orients an edge: after the first two stages every pair is decided by its own independence test.", "quantifier": "all levels in (1e-5, 0.05], lists of p-values of any length, data, numbers of variables and regression results", "why_tests_cant": "An inequality for the chi-square distribution with any even number of degrees of freedom, and real p-values.", "anchors": ["cdmir/discovery/funtional_based/one_component/olc.py:fisher_test", "cdmir/discovery/funtional_based/one_component/olc.py:olc"]}
{"id": "C73", "title": "olc stops with a graph of the right shape", "statement": "For at least two variables and all outcomes of the numerical parts, olc stops and returns a square matrix over the observed and the latent variables where two observed variables have at most one edge, directed or undecided, nothing points at a latent variable, every latent variable has at least three observed children, and coefficients belong to arrows. False in this generality: when as many latent variables were found as there are observed ones, the next attempt raises IndexError. That is the only other outcome and needs at least four variables. Moreover the arrows of the first two stages are always returned with the coefficient 0/d, which is 0 or NaN: it is never estimated.", "quantifier": "all numbers of variables, data, set orders and outcomes of tests, regressions and moments", "why_tests_cant": "Termination and shape along every run of three nested searches with shared mutable state.", "anchors": ["cdmir/discovery/funtional_based/one_component/olc.py:olc", "cdmir/discovery/funtional_based/one_component/olc.py:surrogate_regression"]}
{"id": "C74", "title": "The learned latent hierarchy is a forest over the observed variables", "statement": "In every state of the main loop of Latent_Hierarchical_Causal_Structure_Learning, and in its result, the latent variables and their members form a forest: every member is an observed or latent variable, no variable has two parents or is below itself, every latent variable has at least two different members, and every observed variable is under exactly one root; during the loop the roots are the columns of the current data. This needs that the clusters found in one round are disjoint. Without that it is false: clusters of three or more variables found in the same pass may overlap, and a variable can get two parents.", "quantifier": "all tetrad tests, set orders, numbers of observed variables and rounds", "why_tests_cant": "An invariant of a loop that rewrites the data, three lists of clusters and the index in each round, over all outcomes of the tests.", "anchors": ["cdmir/discovery/funtional_based/LearningHierarchicalStructure/Causal_Discovery_in_LHM.py:Latent_Hierarchical_Causal_Structure_Learning", "cdmir/discovery/funtional_based/LearningHierarchicalStructure/MergeCluster.py:MergeCausalCluster", "cdmir/discovery/funtional_based/LearningHierarchicalStructure/UpdataData.py:UpdataData"]}
{"id": "C75", "title": "Rounds of the hierarchical learner make progress, or it never ends", "statement": "With disjoint clusters, a round after which the loop goes on either lowers the number of active variables or changes neither the set of active variables nor the hierarchy. So a run with more rounds than observed variables has ended or had an idle round. A round that goes on with the same data is repeated for ever. This happens: with six variables of which only one pair forms an impure cluster the program does not terminate.", "quantifier": "all tetrad tests, set orders, data sizes and numbers of rounds", "why_tests_cant": "Non-termination cannot be observed by a test and termination is needed for all data.", "anchors": ["cdmir/discovery/funtional_based/LearningHierarchicalStructure/Causal_Discovery_in_LHM.py:Latent_Hierarchical_Causal_Structure_Learning", "cdmir/discovery/funtional_based/LearningHierarchicalStructure/MergeCluster.py:MergeCausalCluster"]}
{"id": "C76", "title": "The exceptions of the hierarchical learner", "statement": "With disjoint clusters, a run that fails raises SystemExit, on purpose, or IndexError. IndexError needs an active latent variable none of whose pure clusters is known, as after merging two impure clusters; this can happen. No KeyError, ValueError or other exception is possible.", "quantifier": "all tetrad tests, set orders, data sizes and numbers of rounds", "why_tests_cant": "Absence of exceptions in every run.", "anchors": ["cdmir/discovery/funtional_based/LearningHierarchicalStructure/UpdataData.py:roll_back", "cdmir/discovery/funtional_based/LearningHierarchicalStructure/MergeCluster.py:Inner_EarlyLearning", "cdmir/discovery/funtional_based/LearningHierarchicalStructure/MergeCluster.py:OutterEarlyLearning"]}
{"id": "C77", "title": "What the drawn graph of the hierarchical learner means", "statement": "The graph has an edge from L to v exactly if v is a member of L or L is a latent variable listed before v in a recorded impure cluster. When the last round finds no cluster, all active variables are recorded as an impure cluster, so each active latent variable gets an edge to every active variable listed after it, although these are roots of the hierarchy. The graph need not be acyclic.", "quantifier": "all indexes, impure clusters, runs", "why_tests_cant": "The meaning of the result for all runs, and edges that depend on list positions only.", "anchors": ["cdmir/discovery/funtional_based/LearningHierarchicalStructure/MakeGraph.py:tranImpureToLatentIndex", "cdmir/discovery/funtional_based/LearningHierarchicalStructure/MergeCluster.py:MergeCausalCluster"]}
{"id": "C78", "title": "Impure clusters are merged without evidence when nothing is left", "statement": "Two impure clusters that leave at most one other active variable are merged whatever the data say. So members of one latent variable need not pass the tetrad tests, even if all tests are answered as in a tree: two pairs of latent variables with different parents end up under one.", "quantifier": "all tests, clusters, data and set orders", "why_tests_cant": "A statement about all data sets, including those on which every test would reject.", "anchors": ["cdmir/discovery/funtional_based/LearningHierarchicalStructure/MergeCluster.py:TestImpureWithImpure", "cdmir/discovery/funtional_based/LearningHierarchicalStructure/MergeCluster.py:MergeCausalCluster"]}
{"id": "C79", "title": "Wishart's tetrad test: invariances, and the wrong variance", "statement": "The answer of the vanishing-tetrad test does not depend on units of measurement (shift, scale, sign), on the order of the samples, on exchanging both pairs within or the two pairs with each other. It compares the tetrad with rows x,y and columns z,w with a standard deviation, and says 'vanishes' exactly when it is less than the critical number of standard deviations from 0. But the variance used is Wishart's variance of the tetrad with rows x,w and columns y,z; it is the right one only when the products of the two principal minors agree, and exchanging x and y, which only flips the sign of the tetrad, can change the answer. A column without variation makes the tetrad exactly 0 and the answer always False. The only exception is ZeroDivisionError, with one or two samples.", "quantifier": "all sample sizes, all real columns, all levels, all strictly increasing distribution functions", "why_tests_cant": "Invariance under all rescalings and permutations of all data sets; the wrong pairing of minors gives plausible numbers on every single data set.", "anchors": ["cdmir/discovery/funtional_based/LearningHierarchicalStructure/VanishedTest.py:vanishes", "cdmir/discovery/funtional_based/LearningHierarchicalStructure/VanishedTest.py:wishartEvalTetradDifference", "cdmir/discovery/funtional_based/LearningHierarchicalStructure/VanishedTest.py:wishartTestTetradDifference"]}
{"id": "C80", "title": "How small the acyclicity penalty must be for a DAG", "statement": "If the final penalty of a continuous learner (linear, multi-layer network, Sobolev basis) is below (t^2/d)^d, where t is the edge threshold and d the number of variables, then the truncated graph has no directed cycle. With the default tolerance 1e-8 and threshold 0.3 every converged linear run on at most four variables is therefore a DAG; on five variables it need not be.", "quantifier": "all weight matrices, all numbers of variables, all thresholds up to sqrt d, all optimisers", "why_tests_cant": "A claim about every matrix the optimiser might return; tests see a handful, nearly always acyclic ones.", "anchors": ["cdmir/discovery/score_based/entropy_based/entropy_based_discovery/linear.py:notears_linear", "cdmir/discovery/score_based/entropy_based/entropy_based_discovery/nonlinear.py:h_func", "cdmir/discovery/score_based/entropy_based/entropy_based_discovery/nonlinear.py:notears_nonlinear"]}
{"id": "C81", "title": "The neural learner: packing, self-loops, and what edges mean", "statement": "Packing the parameters of a network into one vector and back loses nothing, and each bound lands on its own parameter. Training finishes whenever rho_max exceeds 1; after at least one iteration with an optimiser that respects its bounds, the estimated graph has no self-loops, every nonzero weight reaches the threshold, no prediction depends on the column it predicts, and the L1 penalty is at least the sum of absolute weights. A zero in the untruncated weight matrix means the prediction does not depend on that column. The converse fails, a truncated zero does not mean independence, and with max_iter = 0 the random start is reported with self-loops. The only exception of training is TypeError, exactly when rho_max is at most 1.", "quantifier": "all depths and widths, all initial weights, all optimisers, all activation functions, all data", "why_tests_cant": "Quantifies over all optimisers, networks and data sets; index layout of flattened parameters is only right if it is right for every shape.", "anchors": ["cdmir/discovery/score_based/entropy_based/entropy_based_discovery/lbfgsb_scipy.py:_gather_flat_bounds", "cdmir/discovery/score_based/entropy_based/entropy_based_discovery/lbfgsb_scipy.py:_gather_flat_params", "cdmir/discovery/score_based/entropy_based/entropy_based_discovery/lbfgsb_scipy.py:_distribute_flat_params", "cdmir/discovery/score_based/entropy_based/entropy_based_discovery/nonlinear.py:NotearsMLP", "cdmir/discovery/score_based/entropy_based/entropy_based_discovery/nonlinear.py:NotearsSobolev", "cdmir/discovery/score_based/entropy_based/entropy_based_discovery/nonlinear.py:dual_ascent_step", "cdmir/discovery/score_based/entropy_based/entropy_based_discovery/nonlinear.py:notears_nonlinear", "cdmir/discovery/score_based/entropy_based/entropy_based_discovery/locally_connected.py:forward"]}
{"id": "C82", "title": "The linear entropy learner: result, annealing, dead penalty, dead trainer", "statement": "train_LBFGSB finishes whenever rho_max exceeds 1. With an optimiser that respects its bounds the result has no self-loops, no weight below the threshold, and is the truncation of the matrix W0 with prediction X W0 (plus biases); no prediction depends on its own column. A penalty below (t^2/d)^d makes it a DAG. Annealing lowers the weight of the entropy loss by 0.1 per round and never to zero. The L2 weight lambda2 cannot change which parameters are preferred, because the L2 term is computed from the data. train_dam returns a result for no input: it ends with AttributeError after the whole training, or TypeError.", "quantifier": "all numbers of variables, optimisers, data, multipliers and iteration counts", "why_tests_cant": "Quantifies over all optimisers and data; that no input makes train_dam return is a negative universal.", "anchors": ["cdmir/discovery/score_based/entropy_based/entropy_based_discovery/linear_ent.py:linear_nonGauss", "cdmir/discovery/score_based/entropy_based/entropy_based_discovery/linear_ent.py:LBFGSB", "cdmir/discovery/score_based/entropy_based/entropy_based_discovery/linear_ent.py:train_LBFGSB", "cdmir/discovery/score_based/entropy_based/entropy_based_discovery/linear_ent.py:train_dam"]}
{"id": "C83", "title": "The entropy loss pools all variables", "statement": "Replacing the residuals e by a e + b adds ln |a| to the loss and nothing else, so the loss falls below every bound as the fit improves. The loss depends only on the collection of all residuals, not on which variable they belong to; it is therefore not the sum of the entropies of the variables. It is at most the entropy of a normal variable of the same deviation, and it is NaN exactly when there are fewer than two residuals or all are equal, for instance for a perfect fit. The numeric constants agree with the formulas beside them.", "quantifier": "all sample sizes, numbers of variables, predictions and data", "why_tests_cant": "Invariance under all rearrangements of all residual matrices; the loss gives plausible numbers on each.", "anchors": ["cdmir/discovery/score_based/entropy_based/entropy_based_discovery/utils.py:entropy_loss_mentappr"]}
{"id": "C84", "title": "Random graphs and weights of the entropy package", "statement": "For every undirected graph igraph may draw and all permutations, an 'ER' graph passes the acyclicity assertion and is an acyclic orientation of the drawn graph up to a renaming of the nodes, with exactly one direction per edge. 'SF' and 'BP' graphs are the drawn directed graph up to a renaming; a cyclic one fails the assertion. Weights are zero off the graph and lie in the drawn range on it, so when no range contains 0 the weighted graph is the drawn graph, and the linear simulator accepts it and returns data satisfying its equations.", "quantifier": "all numbers of nodes, drawn graphs, permutations, ranges, draws, sample sizes", "why_tests_cant": "A test sees a few draws; the claim is about every draw.", "anchors": ["cdmir/discovery/score_based/entropy_based/entropy_based_discovery/utils.py:simulate_dag", "cdmir/discovery/score_based/entropy_based/entropy_based_discovery/utils.py:simulate_parameter", "cdmir/discovery/score_based/entropy_based/entropy_based_discovery/utils.py:simulate_linear_sem"]}
{"id": "C85", "title": "Simulated data of the entropy package satisfy the structural equations", "statement": "For every topological order igraph may choose, the linear simulators (also with one drawn scale per variable) return data in which each variable follows the equation of the chosen type from its parents, and raise ValueError for cyclic matrices, scale lists of the wrong length, unknown types and negative scales. In the nonlinear simulator roots are their noise and every other variable is the documented function of its parents plus noise; cyclic matrices never give data; a number as noise scale raises TypeError and a short list IndexError; an unknown function name is noticed only if the graph has an edge. The pairwise simulator puts the cause in column 0, or in column 1 for direct=1.", "quantifier": "all weight matrices, orders, draws, sample sizes, scales and types", "why_tests_cant": "The equations must hold for all graphs and all orders of a topological sort; random data look plausible when they do not.", "anchors": ["cdmir/discovery/score_based/entropy_based/entropy_based_discovery/utils.py:simulate_linear_sem", "cdmir/discovery/score_based/entropy_based/entropy_based_discovery/utils.py:simulate_linear_sem_variable_scale", "cdmir/discovery/score_based/entropy_based/entropy_based_discovery/utils.py:simulate_nonlinear_sem", "cdmir/discovery/score_based/entropy_based/entropy_based_discovery/utils.py:simulate_pariwise"]}
{"id": "C86", "title": "What infinitely many samples stand for", "statement": "For n = inf (n_samples = None) both linear simulators return a matrix X with X'X/d equal to the covariance matrix of the linear model, computed from its total effects; the squared loss of any weights on X is the expected loss. If all noise scales are equal and positive, the true weights are the only minimiser of that loss among all acyclic weights. With unequal scales this is false: the reversed edge can have smaller loss. Every other noise type is rejected, as are cyclic matrices.", "quantifier": "all acyclic weight matrices, scales and candidate weights", "why_tests_cant": "A uniqueness statement over all acyclic weight matrices of all sizes.", "anchors": ["cdmir/discovery/score_based/entropy_based/entropy_based_discovery/utils.py:simulate_linear_sem", "cdmir/datasets/simlulators.py:IIDSimulator.simulate_linear_anm"]}
{"id": "C87", "title": "The gamma HSIC test: statistic, invariances and decision", "statement": "The statistic of HSIC.py equals the number of samples times the biased HSIC estimate with Gaussian kernels whose width is the median of the nonzero pairwise distances; it is never negative, and positive for a variable tested against itself if the data vary. It is symmetric in the variables and does not depend on the order of the samples or on a common unit of measurement. The test answers only with at least six samples of two variables that vary; the threshold is the quantile of the gamma distribution, with positive parameters, whose mean and variance are those published for the null distribution, and a stricter level never turns acceptance into rejection.", "quantifier": "all sample sizes, dimensions, data and levels", "why_tests_cant": "Nonnegativity needs positive definiteness of all Gaussian matrices, and the invariances hold for every data set.", "anchors": ["cdmir/utils/independence/functional/HSIC.py", "cdmir/discovery/funtional_based/LearningHierarchicalStructure/HSIC.py", "cdmir/discovery/funtional_based/LearningHierarchicalStructure/indTest/HSIC.py"]}
{"id": "C88", "title": "The additive-noise direction score", "statement": "Exchanging cause and effect exchanges the two scores; both are HSIC statistics, not negative and independent of the units, and a perfect fit gives 0. Up to 2000 samples their order does not matter; above, only 2000 rows at fixed places are used and the order does matter (shown with 2001 samples). If the regression returns one-dimensional predictions, as current scikit-learn does, broadcasting makes both scores equal to the HSIC of the two variables whatever the regression computes, so the direction is never determined.", "quantifier": "all data, regressions and sample sizes", "why_tests_cant": "Statements about every regression function and every data set, including sizes tests do not reach.", "anchors": ["cdmir/discovery/funtional_based/anm/ANM.py:FastHsicTestGamma", "cdmir/discovery/funtional_based/anm/ANM.py:ANM.cause_or_effect"]}
{"id": "C89", "title": "The HSIC estimates and simulated p-values of indTest", "statement": "For symmetric kernels HSIC_U_statistic is the mean over all quadruples of different samples, HSIC_V_statistic is m squared times the biased estimate, and the statistic of random features is the biased estimate of their inner products; none depends on the order of the samples. The permutation p-value is the share of permutations, counting the data themselves, with a larger estimate; the spectral one compares the estimate, times n and for the biased one times m squared, with weighted sums of the draws. Simulated p-values lie between 1/(B+1) and 1. If all values differ, at most the fraction t of the equally likely choices of the observed value gets a p-value of at most t; with ties this is false, since equal values are not counted, and a constant variable, whose estimates are 0, always gets the smallest possible p-value in the permutation and in the spectral test. Random features with the unbiased estimate raise AttributeError.", "quantifier": "all kernels, features, sample sizes, permutations and draws", "why_tests_cant": "Exactness quantifies over all values and levels; the identity over all quadruples of all sizes.", "anchors": ["cdmir/discovery/funtional_based/LearningHierarchicalStructure/indTest/HSICTestObject.py", "cdmir/discovery/funtional_based/LearningHierarchicalStructure/indTest/HSICPermutationTestObject.py", "cdmir/discovery/funtional_based/LearningHierarchicalStructure/indTest/HSICSpectralTestObject.py"]}
{"id": "C90", "title": "The matrix exponential by Taylor approximants and its gradient", "statement": "expm_taylor evaluates, for the degrees 1, 2, 4 and 8, exactly the truncated exponential series, and for 12 and 18 polynomials of that degree whose coefficients agree with those of the series up to the factor 1 +- 1e-15. For every square matrix the result, with scaling and squaring where needed, differs from the exponential of the matrix in the maximum norm by at most (exp(r (1 + sum |a_ij|)) - 1) exp(a), where a bounds the rows of the matrix and r is 2.1e-15 in double and 1.3e-7 in single precision; each matrix of a batch satisfies the same bound with the Frobenius norm, whatever order the sort returns, since matrix_power_two_batch raises each matrix to its own power. The derivative of the exponential is the upper right corner of the exponential of the double block matrix. The backward pass is, outside A = 0, the exact gradient of a polynomial approximant and differs from the gradient of the exponential by at most the error of the forward pass for the block matrix; for A = 0 it is exact. The backward pass is not linear in the incoming gradient, because that gradient takes part in the choice of the degree.", "quantifier": "all matrices, batches, sorts, incoming gradients and directions, in exact arithmetic", "why_tests_cant": "The bounds hold for a continuum of matrices of every size; an evaluation scheme with one wrong decimal agrees with the exponential on sampled matrices to within the tolerance of a test.", "anchors": ["cdmir/discovery/score_based/entropy_based/pytorch_expm/expm_taylor.py"]}
{"id": "C91", "title": "The matrix exponential by Pade approximants and its gradient", "statement": "The matrices U + V and V - U that expm64 and expm32 form are, up to a common factor, numerator and denominator of the diagonal Pade approximants of the exponential of the orders 3, 5, 7, 9 and 13, with coefficients (2m-k)! m! / ((2m)! k! (m-k)!), for the matrix divided by 2^s where it is scaled. The tests on the powers A^4, A^6, A^8 and A^10 make the denominator invertible in every case, so that the result does not depend on how singular systems are treated. Every matrix that is returned differs from the exponential in the sum of absolute values by at most (exp(u sum |a_ij|) - 1) times the sum of absolute values of the exponential, where u is 1.12e-16 in double and 6.2e-8 in single precision. A result is returned whenever A^8 is not zero; for nilpotent matrices it may be missing: a chain of seven variables with weights 3 makes expm64 raise OverflowError, and a chain of five expm32. The backward pass differs from the gradient of the exponential by at most the error of the forward pass for the double block matrix.", "quantifier": "all matrices of all sizes, all solvers, incoming gradients and directions, in exact arithmetic", "why_tests_cant": "The bound is of the order of the rounding errors and holds for a continuum of matrices, including strongly non-normal ones for which the tests on roots of powers, not the norm, choose the degree; the overflow occurs only for nilpotent matrices with large weights.", "anchors": ["cdmir/discovery/score_based/entropy_based/pytorch_expm/expm64.py", "cdmir/discovery/score_based/entropy_based/pytorch_expm/expm32.py", "cdmir/discovery/score_based/entropy_based/pytorch_expm/expm_pade.py"]}
{"id": "C92", "title": "Kernel cross-validated scores", "statement": "For two or more rounds and at least as many samples, GeneralCVScore and MultiCVScore return s if and only if s is minus the mean over the rounds of half of n^2 log(2 pi) + n log(product of the diagonal of the Cholesky factor) + the squared Mahalanobis lengths of the residuals of the n validated samples, where the features are those of the doubly centred Gaussian kernel with the median heuristic (4 times the median, or 9 times the number of columns times the median), the residuals are those of a ridge regression on the product kernel of the parents with parameter lambda times the number of training samples, and covariance and factor are those of the training residuals, regularised by 1/100. A score exists whenever no variable is constant. The validated sets are a partition of the samples and every round trains on the complement. The score does not depend on the order of the parents nor on the units of the variables, and is bounded by a constant that depends on the numbers of samples and rounds only. Only half of the log-determinant is counted, so differences of scores are not log-likelihood ratios. With one round or fewer samples than rounds, a variable without parents raises ZeroDivisionError and the score with parents is the same for all parents. Parameters given by position are ignored.", "quantifier": "all data, labels, variables, parents, lambda > 0, numbers of rounds and samples, all exact inverses of triangular matrices", "why_tests_cant": "The score is one number at the end of several matrix identities (Woodbury, push-through); a test with a stored value cannot tell whether it is the cross-validated quantity, and the identities hold for a continuum of data.", "anchors": ["cdmir/utils/local_score/cross_validated_base.py", "cdmir/utils/local_score/score_utils.py:8-63"]}
{"id": "C93", "title": "The optimiser of the kernel scores", "statement": "minimize returns one of the points it has evaluated, with a value at most that of the start and of every element of the returned list of values; that list starts with the initial value and strictly decreases. It returns for every objective that does not fail. With a negative length it makes at most that many evaluations and reports their exact number; with a positive one at most 20 for each line search and one more. If the derivatives vanish in every coordinate the slopes depend on, no line search succeeds: these coordinates are not changed and there are at most 41 evaluations whatever length is. Two statements of its comments are false: after a successful line search that uses up the evaluations the result need not be the best point evaluated, and an objective that fails between two points where it is defined makes the optimiser fail, because only the extrapolation catches exceptions.", "quantifier": "all objectives, starts, slopes with slope(s, s) >= 0, conjugate directions, lengths", "why_tests_cant": "The claims are invariants over every objective and every run of the nested loops; a test follows one trajectory of one function.", "anchors": ["cdmir/utils/local_score/score_utils.py:112-311"]}
{"id": "C94", "title": "Kernel marginal likelihood scores", "statement": "MultiMarginalScore returns the log marginal likelihood of a Gaussian process regression: its targets are the leading eigenvectors of the doubly centred Gaussian kernel of the variable (25/4 of the median of the squared distances), up to the first eigenvalue not above 1e-5 of the largest, scaled by 2 sqrt(T lambda / lambda_0); its covariance is the product of such kernels of the parents plus some noise, and the score is at least that for the noise 1/10. It returns exactly for four or more samples, at least one parent, and a variable and parents that are not constant; in particular it always fails without parents. The fit of the hyperparameters is void: at most 41 of the 300 evaluations are made and all evaluated points have the initial length scales and signal variance. GeneralMarginalScore regresses the features of the parents themselves: its score is the same for every variable and whatever the data of the variable are.", "quantifier": "all data, labels, variables, parents, numbers of samples; all exact inverses of triangular factors, all functions returning leading eigenpairs of the centred kernel, all conjugate directions", "why_tests_cant": "That a value is a marginal likelihood, that no hyperparameter but the noise ever moves and that a score does not depend on its variable are statements about all data; a test compares a few numbers.", "anchors": ["cdmir/utils/local_score/marginal_base.py", "cdmir/utils/local_score/score_utils.py:66-109", "cdmir/utils/local_score/score_utils.py:383-698"]}
{"id": "C95", "title": "Kernel-based conditional independence test", "statement": "With a kernel for z, the test of x and y given z returns the statistic of Zhang et al. (2011) for the standardised data: the sum of the products of the two centred kernel matrices of (x, z / 2) and of y after kernel ridge regression on the centred kernel of z, and the p-value of the gamma distribution with the mean and the variance derived there for the parts of the two matrices that belong to eigenvalues above the threshold; without one, the same with kernels and noises of Gaussian processes fitted to the scaled leading eigenvectors. The statistic is never negative. Units of measurement and, unless a width comes from more than 1000 samples, the order of the samples do not matter. For a constant z the statistic is that of the unconditional test, which with two Gaussian kernels of width 1 is the test of kci.py. For a constant y the answer is (NaN, 0) with a kernel for z and an IndexError with the Gaussian process, which raises ValueError for fewer than four samples and otherwise returns if y and one of x and z vary. The test is not symmetric in x and y.", "quantifier": "all data, columns, linear, polynomial and Gaussian kernels and width strategies, thresholds, penalties; all exact inverses, eigenvalue solvers, positive Gaussian processes and gamma distribution functions", "why_tests_cant": "That the returned numbers are the statistic and the moments of the paper, and which changes of the data they ignore, are statements about all data matrices and all choices of eigenvectors; a test sees one decomposition of a few matrices.", "anchors": ["cdmir/utils/independence/kernel_based.py:66-107", "cdmir/utils/independence/kernel_based.py:127-289", "cdmir/utils/kernel/gaussian.py:26-103", "cdmir/utils/kernel/_base.py:25-42"]}
{"id": "C96", "title": "Spectral null distributions of the kernel tests", "statement": "With approximate_mode=False the p-value is the proportion of the simulated values that exceed the statistic, each simulated value being a sum of independent chi-squares: in the unconditional test weighted by the products of the eigenvalues of the two centred kernel matrices divided by n (beyond 1000 samples of the larger half of them), in the conditional test by the eigenvalues of the entrywise product of the dominant parts of the two residual kernels; of these, the ones above threshold times the largest. The simulated distribution has at most the mean and at most the variance of the gamma distribution of the other mode, at least (1 - t n^2) and (1 - t^2 n^2) of them (1 - t n and 1 - t^2 n in the conditional test), and the same for threshold 0. Units of measurement and the order of the samples do not matter. The unconditional test answers p = 0, dependence, for a constant variable; the conditional one raises ValueError for a constant y. Beyond 1000 samples the unconditional mode raises AttributeError with numpy 1.24 or later; with one simulated value it raises TypeError, with none ZeroDivisionError, and otherwise it returns a p-value between 0 and 1.", "quantifier": "all data, columns, kernels, thresholds, penalties, simulated chi-squares; all exact inverses and eigenvalue solvers; all expectations under which the chi-squares have their means, variances and covariances", "why_tests_cant": "That two different approximations of the null distribution have the same first two moments, and that the eigenvalues of the small matrix u^T u are the non-zero ones of the large one whatever the solver returns, are statements about all matrices; a test compares noisy simulations for a few of them.", "anchors": ["cdmir/utils/independence/kernel_based.py:66-77", "cdmir/utils/independence/kernel_based.py:109-125", "cdmir/utils/independence/kernel_based.py:161-172", "cdmir/utils/independence/kernel_based.py:244-299"]}
{"id": "C97", "title": "The Fisher-z test on data", "statement": "From data whose variables asked about are in general position the Fisher-z test answers with the correlation of the residuals that the least-squares regressions of x and of y on an intercept and the conditioning variables leave over, and with the two-sided tail of its Fisher transformation; the order of the records does not matter, other units of measurement do not change the p-value and at most the sign of the statistic. If a variable asked about is constant the statistic is NaN, and the p-value is that of a correlation of 0.9999999 whatever the data: a constant variable is declared dependent of every other. The function fisherz on arrays agrees with the class for one variable against another; without Z it takes vectors only (ValueError otherwise); for a matrix x with more than one column it tests the first two columns of x against each other instead, and if x has two columns more than Z the answer does not depend on y.", "quantifier": "all data, questions, arrays, all inverses that are right on non-degenerate matrices of correlations, all (for the bound: monotone) distribution functions", "why_tests_cant": "That the statistic computed from the inverse of the matrix of correlations is the correlation of regression residuals is an identity over all data; and the answers for constant variables and matrices come from NaN comparisons and index arithmetic that tests with generic vectors never reach.", "anchors": ["cdmir/utils/independence/functional/fisherz.py:8-34", "cdmir/utils/independence/fisherz.py:13-19"]}
{"id": "C98", "title": "PC on data with the Fisher-z test, end to end", "statement": "PC.fit(data, names, indep_cls=FisherZ) on data in general position returns, and its edges mean what they say: two variables without an edge have a set of other variables given which Fisher's test of the sample's partial correlation accepts at level alpha, two variables with an edge have none among the neighbours of either. If the decisions on the sample are those of d-separation in a DAG, the result is that DAG's CPDAG. Other units of measurement and another order of the records give the same result; another order of the columns gives the same skeleton and separating sets with the plain search. A variable with only one value becomes adjacent to every other variable, and from a single record the result is complete. A DataFrame gives what its array gives with the column names; an array without names gets 0 .. d-1. Other data are refused with AssertionError, vectors with IndexError, names that do not fit or repeat with AssertionError, and every positional argument after the names, the test class included, with TypeError.", "quantifier": "all data, names, levels, both searches, all inverses that are right on non-degenerate matrices of correlations, all distribution functions (monotone for the constant variable)", "why_tests_cant": "The edges of the result depend on which partial correlations the search happens to ask for; that they are characterised by the sample, and unchanged by units and orders, holds for all data and needs the searches, the names, the regression identity and the orientation rules together.", "anchors": ["cdmir/discovery/constraint/pc.py:30-47", "cdmir/utils/adapters.py:5-19", "cdmir/utils/independence/basic_independence.py:24-46", "cdmir/discovery/constraint/adjacency_search.py:41-85", "cdmir/utils/independence/fisherz.py:13-19"]}
{"id": "C99", "title": "The tables SHP prepares from the events", "statement": "From a table of events the constructor of SHP builds: the sorted list of event types; a row for each sequence, time (as given, or on the grid of the interval) and type that occurs, with the time counted from the first event of its sequence and the number of such events; a matrix with a row for each sequence and time and the number of events of each type in its columns; for each row and type what the events of this type, in the same sequence and not later (simultaneous ones included), have left of their exponentially decaying effects, without effects below 1/10000; the integral of these effects to the end of the sequence; and the total time as the sum of the lengths of the sequences. The order of the events does not matter. Without an interval the starting times of the sequences do not matter; with one they do not as long as they move by multiples of the interval and no time is negative, and otherwise they can, because times are rounded towards 0, so that the interval around 0 is twice as long. The constructor raises for an interval of 0, for an unknown penalty, for an initial structure with entries other than 0 and 1, and for every table of numbers with float times. get_interval_events writes the rounded times into the caller's table and returns the times by sequence, in order of occurrence, and by type, in order.", "quantifier": "all tables of events, decays, intervals, column types and options", "why_tests_cant": "The tables result from grouping, merging, re-indexing and an incremental sweep with early exits over rows sorted by sequence and time; that the sweep neither misses nor repeats an event's effect, across sequences and the cut-off, is a statement about all event tables. The rounding at 0 and the failure on float tables depend on conversions that examples with string types and positive times do not show.", "anchors": ["cdmir/discovery/point_process/SHP.py:15-20", "cdmir/discovery/point_process/SHP.py:29-139"]}
{"id": "C100", "title": "What SHP's estimation of rates and strengths maximises", "statement": "For one event type and its supposed causes, the estimation in SHP ends from every start and returns a positive base rate, strengths that are not negative, and 0 for the types that are no causes. The number it reports is the log likelihood in which every event of a cause has its whole effect. Its rounds do not lower, and at a fixed point maximise, another log likelihood: that of the process observed to the end of each sequence with the masses of the effects multiplied by the interval; in it the expected number of events is the number seen. The reported log likelihood can fall in a round, and the estimation then stops and returns the strengths of the lower one. For a type without causes the estimation ends after two rounds with the number of events per unit of time, which is the maximum of the reported likelihood.", "quantifier": "all tables of events, decays, intervals, types, sets of causes, random starts and numbers of rounds", "why_tests_cant": "That a round of an EM algorithm does not lower a likelihood is an inequality (Jensen's) over all data and parameters; samples show rising and falling numbers but not which function is maximised, and a mismatch between the maximised and the reported likelihood looks like convergence.", "anchors": ["cdmir/discovery/point_process/SHP.py:151-202"]}
{"id": "C101", "title": "The tables of the Hawkes simulator", "statement": "For all times that the package tick returns: the table of get_artificial_data has one row for each simulated time, with its sequence and type and the time as it is or on the grid of the interval, and no other rows. The nested lists have an entry for each sequence with an event and in it one for each type with an event somewhere; so positions are the numbers of sequences and types if all have events, and in general not. The simulated process has an effect of i on j exactly for the edges from i to j with a strength other than 0, set once, and always from smaller to larger numbers. The simulation with an interval returns what get_interval_events makes of the one without, and applying that again changes nothing. It raises without sequences, and for an interval of 0 if there is an event. SHP raises TypeError for every such table unless an integer interval is given, there or in the simulation; its types are then those with an event. INSEM_data gives one sequence with the drawn numbers of events of type 0 and, of type 1, those kept plus those drawn; it raises exactly if there is no event.", "quantifier": "all numbers of types and sequences, shuffles, draws, simulated times, intervals and sample sizes", "why_tests_cant": "The tests fix one seed and look at shapes; sequences or types without events, which shift every position, and the refusal of float tables by SHP depend on the draws and on the interval's type.", "anchors": ["cdmir/datasets/simlulators.py:563-652"]}
{"id": "C102", "title": "The graph drawn from clusters and their order", "statement": "For all clusters and orders, Transfer2Index returns unless a key is not the text of an integer (then ValueError). It names the latents L1, L2, ... without a gap; every cluster has its own consecutive latents, as many as its key says, with its members, and these groups are the third result. The list of roots runs through the order and has for every entry the latents whose cluster has the same members. Make_graph draws an edge from each latent to each of its members and from each entry of the order to each later one unless one group has both, and no others. If no two entries of the order have the same members and no measured variable has the name of a latent, the graph has no cycle, two latents of different groups in the order are joined by exactly one edge from the earlier one, and two of one group are not joined. An entry that comes again, or a measured variable called L1, can make a cycle, and the latents of a cluster listed under two keys are joined although they have the same members. For the hierarchical search (Make_graph_Impure) the edges are the members and, for every impure cluster, from each latent in it to all later ones.", "quantifier": "all dicts of clusters, orders, latent indexes, groups and lists of impure clusters", "why_tests_cant": "The functions end in a drawing window and no test calls them; cycles depend on repeated entries and on the names of the variables, so examples do not show when the drawing is sound.", "anchors": ["cdmir/discovery/funtional_based/LearningHierarchicalStructure/MakeGraph.py:5-107"]}
{"id": "C103", "title": "The estimation of a whole Hawkes graph and the shared table of likelihoods", "statement": "For all event tables and all graphs given as matrices of 0 and 1 in which every cause has an event before the end of a sequence, EM_not_HC on a fresh object ends, also on graphs with cycles and with edges from a type to itself, with positive base rates, strengths that are not negative and 0 where there is no edge, expected numbers of events equal to those seen, and a score that is the log likelihood of the whole process (each event with its whole effect) less the price of the types and edges: reg under AIC, reg times the logarithm of the number of events under BIC. EM does the same on graphs without a cycle, with the price 1 under AIC whatever reg is. After any calls of the two, EM_not_HC called again with the same graph returns the same score, strengths and base rates without one round, whatever the random numbers; and EM after it returns minus infinity on a graph with a cycle and otherwise, if sets of causes are run through in ascending order, the strengths and base rates of the table, with the same score under BIC and one that differs by (types + edges)(reg - 1) under AIC.", "quantifier": "all event tables, graphs, random starts, penalties, orders of sets and sequences of calls", "why_tests_cant": "The test of EM_not_HC prints the performance on one seed and asserts nothing; that the loop ends on cyclic graphs and that repeated calls never estimate again concern all tables and all histories of calls.", "anchors": ["cdmir/discovery/point_process/SHP.py:142-274"]}
{"id": "C104", "title": "The transition matrices of lagged processes", "statement": "For all random draws without a column of zeros, a call of generate_lag_transitions that returns gives one matrix for each lag, the last drawn first; each is a drawn matrix with its columns divided by their lengths, so that columns have length one and entries lie between -1 and 1, and each is the first draw after the one kept before it whose condition number is not above the percentile accept_per of the condition numbers of the reference matrices. That percentile is the point on the line between its neighbours in ascending order; more than accept_per percent of all values but one are not above it and more than 100 - accept_per percent of all but one are not below it. The call returns if again and again a draw is not above any reference matrix. With two nodes or more the reference matrices (entries between 1 and 2, unlike the draws) have cosines of at least 4/5 between their columns and condition numbers of at least 3, so no draw with a condition number up to 3 is ever rejected, whatever accept_per is. n_nodes or max_lag 0 raise AssertionError, accept_per outside of 0..100 raises ValueError.", "quantifier": "all numbers of nodes and lags, percentages, reference matrices and sequences of draws", "why_tests_cant": "The tests draw one set of matrices with one seed; which draws are kept and that the threshold never falls below 3 concern all draws.", "anchors": ["cdmir/datasets/utils.py:80-117"]}
{"id": "C105", "title": "Mutual information from a smoothed histogram", "statement": "For all samples of equal length and all smoothings of the histogram that give no negative weights, mutual_information_2d returns the mutual information (distance from the product of the marginals) of the smoothed frequencies with 2^-52 added to each weight: never negative, below the entropy of either variable and below ln 256, and 0 exactly if the table is the product of its marginals. The normalised value is the share of the joint entropy: at least 0, 0 exactly for a product, and below 1 even if both variables are the same. The histogram counts the samples in 256 x 256 cells of equal width over the ranges of the variables, each sample once. A positive factor and an offset on either variable change nothing, also for constant variables; exchanging the variables changes nothing if the smoothing treats the axes alike. Samples of different lengths raise ValueError.", "quantifier": "all samples, smoothings, positive factors and offsets", "why_tests_cant": "The tests in the file compare one draw of correlated Gaussians with wide bounds; the sign, the bounds and the invariances concern all samples.", "anchors": ["cdmir/discovery/funtional_based/LearningHierarchicalStructure/mutual.py:105-148"]}
{"id": "C106", "title": "The other entropy losses: units, variance term and bounds", "statement": "For all models and data, if the residuals are multiplied by a number a other than 0 and shifted, entropy_loss_high_order changes by ln |a|, while entropy_loss_G1 and entropy_loss_G1_high_order do not change: the variance in the latter is taken after the residuals were standardised, so its logarithm is 0 and the loss is the sum of the two others without the logarithm of the variance. The fourth moment enters without the 3 of the normal distribution, so that entropy_loss_high_order is at most half the logarithm of the variance less 1/48 for all residuals; entropy_loss_G1 lies between -1 and 0 and the combined loss below -1/48. Each of the three is NaN exactly for at most one residual or equal residuals.", "quantifier": "all numbers of rows and variables, outputs and inputs, factors and offsets", "why_tests_cant": "No test calls these losses; that a loss does not see the size of the residuals concerns all residuals and all factors.", "anchors": ["cdmir/discovery/score_based/entropy_based/entropy_based_discovery/utils.py:470-502"]}
{"id": "C107", "title": "The entropy loss with nearest neighbours: what k = 1 and larger k measure", "statement": "With one neighbour (the default) entropy_loss_knn is, for all residuals with at least two rows and no constant variable, the sum over variables and rows of ln(d^2 + EPS), d being the distance of the standardised residual to the nearest other one of its variable. With two neighbours it is not the loss of the two nearest ones: for the residuals 0, 1, 2, 3 other neighbours give a smaller sum. Fewer than 2k rows raise IndexError. For every k the loss does not change when the residuals of a variable are multiplied by a positive number and shifted.", "quantifier": "all residuals, numbers of rows and variables, EPS > 0; all k for the last two claims", "why_tests_cant": "No test calls the loss; that looking at the two sorted neighbours is enough concerns all residuals, and a wrong neighbour for k > 1 gives an unremarkable number.", "anchors": ["cdmir/discovery/score_based/entropy_based/entropy_based_discovery/utils.py:444-467"]}
