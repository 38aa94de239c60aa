# Formal model of CDMIR: design

Sources: `/repo` (DMIRLAB-Group/CDMIR, Python), read as text only.
Prover: Rocq/Coq 8.16.1, development in `rocq/theories` (logical name `Verif`).

## Layout

* `Model/*.v`   Gallina transcription of the Python code, function by function.
  Every definition cites file and lines. No proofs here.
* `Spec/*.v`    Specifications written without the model's helpers: mark tables,
  directed walks, active paths, consistent extensions, essential graphs, metrics.
* `Proofs/*.v`  Lemmas linking model and specification.
* `Props/*.v`   The property theorems, with the small lemmas that only they need.
  Each theorem is followed by `Print Assumptions`; beside each group of theorems
  stands a concrete non-trivial instance of its hypotheses.

## Modelling conventions

* Node names are natural numbers. The code uses names only through equality and
  hashing, so any finite set of hashable names is represented faithfully. Where
  the *kind* of a name matters (plotting, cache keys) a richer type is used.
* `dict` is an insertion-ordered association list; updating an existing key keeps
  its position and `pop` removes it, as in CPython >= 3.7.
* `set` objects are duplicate-free lists. Where the code iterates over a set, the
  iteration order is an explicit argument (any permutation) and theorems quantify
  over it.
* Exceptions are values (`Err KeyError`, `Err AssertionError`, ...). Mutating
  methods return the graph after the call together with the result or exception,
  so partially applied mutations are visible.
* `while` loops are recursion on fuel with an explicit `OutOfFuel` error;
  termination theorems show that the fuel chosen by the model is never exhausted,
  or (for loops that may diverge) characterise when no amount of fuel suffices.
* Generators are lists, except where the code mutates the graph while a generator
  is suspended; there the loop re-reads the graph at each step as Python does.
* Numbers: p-values and scores are rationals or an abstract ordered type; matrices
  are functions on indices over Z, Q or R. Floating-point rounding is not modelled.
* Oracles (independence tests, scores, random draws, ICA, regression) are function
  arguments; theorems quantify over them.

## Plan per property

| id | modelled code | proof idea |
|----|---------------|------------|
| C01, C04, C05 | `Graph`, `DiGraph`, `PDAG` methods as state transformers | invariant preserved by each operation, induction on histories |
| C02 | add/get/remove | association-list algebra, frame lemmas |
| C03 | `edges`, degrees | double counting over index pairs |
| C06 | self-loop case of `add_edge` | for all graphs: compute queries after the call |
| C07 | `to_numpy`, `graph_equal` | entrywise characterisation; injectivity of mark values without Null |
| C08, C09 | Kahn's algorithm `topo_sort`, `is_acyclic` | loop invariant on found-parent counters; a leftover node yields a cycle by pigeonhole |
| C10, C11 | `get_reachable_nodes`, `is_d_separate` | BFS = reachability in the (node, direction) graph = active walks = active simple paths |
| C12 | same | first-collider argument |
| C13-C15 | `dag2cpdag`, `rule0`, Meek loop | sep-set characterisation from C10/C12; chordality argument (perfect elimination) for completeness; six-node refutation by computation |
| C16, C17 | `rule1..rule4`, `orient_by_meek_rules` | measure = number of undirected pairs; local soundness arguments; refutation witnesses |
| C18, C19 | `pdag2dag`, `check2` | Dor-Tarsi argument with removal order invariant; completeness by sinks of an extension |
| C20-C24 | `adjacency_search`, `fast_adjacency_search`, `Dsep`, `PC.fit` | level invariants; parents as separating set; canonical form shared with dag2cpdag |
| C25 | `_get_cache_key`, `itest` | injectivity of decimal text and of the join; history invariant |
| C26, C27 | `shd`, evaluations | counting over pairs; rational arithmetic |
| C28-C33 | GES helpers and `fit` | subsets, path enumeration, pruning invariant, memo invariant, skeleton counting |
| C34, C35 | SHP structure search, `check_DAG` | loop invariants with abstract score |
| C36-C39 | simulators and graph generators | exact rational arithmetic, topological order, permutation invariance |
| C40-C42 | hierarchical-structure helpers | connected components; list permutations; column bookkeeping |
| C43 | ICA-LiNGAM post-processing | all values abstract, support argument |
| C44 | `h(W)` | expansion of the trace as weighted closed walks |
| C45, C46 | centering, dist2 | rational sums |
| C47 | plotting lookups | node type = int or string |
| C48 | kernel cache | text abbreviation model |
| C49 | `count_accuracy` | counting |
| C50-C61 | see `properties.jsonl` | as the neighbouring rows |
| C62, C32 | `pdag2dag` after `dag2cpdag`; GES | consistent extensions; a seven-node DAG whose PDAG is cyclic, and a score that drives GES there |

## Trusted base

* Coq's kernel (re-checked with `coqchk`), the OCaml runtime, and the reading of
  the Python semantics recorded in the comments of `Model/*.v`.
* No axioms, parameters or admitted proofs are declared in this development.
  The theorems about scores (C65, C66) and about the independence tests
  (C69, C70, C71, C72, C79, C87, C88, C89, C92, C93, C94, C95, C96, C97, C98, C99, C100, C101, C103, C104, C105, C106, C107), the entropy loss (C83), the population matrix (C86) and the matrix exponential (C90, C91) use the real numbers of Coq's standard
  library and with them its axioms `ClassicalDedekindReals.sig_not_dec`,
  `ClassicalDedekindReals.sig_forall_dec`,
  `FunctionalExtensionality.functional_extensionality_dep` and
  `Classical_Prop.classic`; the examples of C95 and C96 also use
  `ClassicalEpsilon.constructive_indefinite_description`; all other theorems are closed.
  `Print Assumptions` is run under every property theorem. Its result per theorem
  is listed at the end of this file; "closed" means "Closed under the global
  context".
* `coqchk -o` also lists the constants `Coq.ssr.ssrunder.Under_rel.*`. They are
  the parameters of a module type in Coq's own ssreflect library, which is loaded
  by the tactics; no theorem depends on them.

### Assumptions about code outside /repo

These are modelling decisions, not axioms; each is recorded at the definition.

* networkx (`topological_sort`, `is_directed_acyclic_graph`) and igraph's `is_dag`
  are modelled by Kahn's algorithm by generations, as documented (Model/Networkx.v).
* `torch.manual_seed(None)` raises TypeError (Model/Simulators.v).
* The matrix that FastICA returns is square, and its pseudo-inverse, the Wald
  p-values and the regression coefficients are arbitrary (Model/Lingam.v).
* The optimiser (`scipy.optimize.minimize`) is an arbitrary function; where a
  theorem needs that it respects its bounds, this is a hypothesis
  (Model/Notears.v, NotearsNet.v).
* numpy abbreviates the text of arrays with more than 1000 elements to three
  entries at each end of an axis; the formatting of numbers and `hash` are an
  arbitrary function of what is shown (Model/Kernel.v).
* sklearn's precision, recall and F1 use zero_division = 0 (Model/Metrics.v).
* The covariance computation inside GIN (GIN2.py:35) is not modelled.
* numpy's `inv` returns the inverse of every correlation matrix without
  degeneracy; pandas' `groupby([])` raises ValueError (Model/LocalScore.v).
* Python's `hash` of strings is an arbitrary function; transparency of caches is
  proved for histories without collision (Model/LocalScore.v, IndepBase.v).
* matplotlib is replaced by a list of patches (Model/Plot.v).
* Rounding, NaN and infinities are not modelled, except where the comments say so
  (ICA row order: Model/Lingam.v; SHP's initial score).

### What is modelled

| file in /repo/cdmir | model | parts |
|---|---|---|
| graph/mark.py, edge.py, graph.py | Graph.v | all methods except `__str__`-like output and warnings |
| graph/digraph.py | DiGraph.v | all |
| graph/pdag.py, dag2cpdag.py | PDAG.v | all, without log messages |
| graph/pdag2dag.py | Pdag2Dag.v | all |
| utils/independence/basic_independence.py, dsep.py | Independence.v | all; `cal_stats` of other tests is an argument |
| discovery/constraint/adjacency_search.py, pc.py | PC.v | all, without log messages |
| utils/metrics/graph_evaluation.py | Metrics.v, Performance.v | all |
| discovery/score_based/greedy_equivalence_search.py | GES.v, Kernel.v | all; the local score is an argument |
| discovery/point_process/SHP.py | SHP.v, SHPTable.v, SHPEM.v | acyclicity test, EM (in rationals with an abstract logarithm, and the loop for one type in reals), hill climbing; preparation of the event table (no missing values, at least one event), get_interval_events |
| point_process/SHP.py (EM, EM_not_HC for a whole graph, hist_likelihood) | SHPGraph.v | exact reals; the order of a set of causes and the random numbers are arguments |
| datasets/utils.py:80-117 (_generate_uniform_mat, generate_lag_transitions) | LagTransitions.v | exact reals; the draws and np.linalg.cond are arguments, infinite condition numbers and columns of zeros are not modelled |
| LearningHierarchicalStructure/mutual.py (mutual_information_2d) | Mutual.v | exact reals; the Gaussian filter is an argument; not the nearest-neighbour entropies |
| entropy_based_discovery/utils.py (entropy_loss_high_order, entropy_loss_G1, entropy_loss_G1_high_order) | EntropyMore.v | exact reals |
| entropy_based_discovery/utils.py (entropy_loss_knn) | EntropyKnn.v | exact reals; not the NaN of constant residuals, nor k = 0 |
| datasets/simlulators.py (HawkesSimulator) | HawkesSim.v | tables, kernels, INSEM_data; tick's simulation is an argument |
| datasets/simlulators.py, utils.py | Simulators.v | linear, nonlinear and post-nonlinear simulation, time series, random graphs |
| LearningHierarchicalStructure/Overlap_Merge, TetradMethod, FindCausalCluster, UpdataData, Infer_Causal_Order | LHS.v | cluster search, merging, data update, ordering |
| LearningHierarchicalStructure/MergeCluster, Causal_Discovery_in_LHM, UpdataData (roll_back), Utils (set functions), MakeGraph (tranImpureToLatentIndex) | LHM.v | early learning, merging, the main loop, the drawn edges |
| LearningHierarchicalStructure/MakeGraph (Make_graph, RmoveEdgeBetweenN_factor, Transfer2Index) | MakeGraph.v | the latent index of clusters with an order, the nodes and edges of the drawn graph; layout and drawing left out |
| LearningHierarchicalStructure/VanishedTest.py | Tetrad.v | all; the normal distribution function is an argument |
| lingam_based/ica_lingam.py | Lingam.v | everything after ICA; not calcwald |
| entropy_based_discovery/linear.py, nonlinear.py, linear_ent.py | Notears.v | penalties, gradient, linear optimisation loop |
| entropy_based_discovery/nonlinear.py, nonlinear_ent.py (same code but for the loss), lbfgsb_scipy.py, locally_connected.py | NotearsNet.v | both networks, packing, training loop; sigmoid, sine, square root and the optimiser with the loss are arguments |
| entropy_based_discovery/linear_ent.py | LinearEnt.v | model, objective, train_LBFGSB, train_dam; not LBFGS_torch (CUDA only) |
| entropy_based_discovery/utils.py | Accuracy.v, EntropyLoss.v, EntSim.v | is_dag, simulators with random graphs and weights, the population branch (also of simlulators.py), count_accuracy, entropy_loss_mentappr; igraph and Gaussian processes are arguments |
| utils/kernel/*, local_score/score_utils.py:dist2, independence/kernel_based.py | Kernel.v | kernels with manual width, cache, centering, unconditional statistic |
| utils/local_score/_base.py, bic_score.py, bdeu_score.py | LocalScore.v | all; the inverse and lgamma are arguments |
| utils/independence/functional/fisherz.py:24-34, fisherz.py | FisherZ.v | all of fisherz_from_corr and cal_stats; the inverse and the normal distribution function are arguments |
| utils/independence/functional/fisherz.py:8-21, fisherz.py:13-16 | FisherData.v | all, with numpy's corrcoef and NaN written out; arrays of more than two dimensions and of different lengths are not modelled |
| utils/independence/functional/kci.py | KCI.v | all; the gamma distribution function is an argument |
| utils/independence/functional/HSIC.py and its copies, anm/ANM.py | HSIC.v | gamma test, ANM score; the gamma quantile and the Gaussian process regression are arguments |
| LearningHierarchicalStructure/indTest/HSICTestObject, HSICPermutationTestObject, HSICSpectralTestObject | HSIC.v | estimates, permutation and spectral p-values; permutations, draws and eigenvalues are arguments; not the block test |
| entropy_based/pytorch_expm/expm_taylor.py | Expm.v | approximants, scaling and squaring, batches, backward pass, in exact arithmetic; the order of torch.sort is an argument |
| entropy_based/pytorch_expm/expm64.py, expm32.py, expm_pade.py | Pade.v | choice of the order, approximants, scaling, backward pass, in exact arithmetic; the solver of linear systems is an argument; the import of expm32 by its bare name and the missing torch.solve of recent versions are not modelled |
| utils/local_score/cross_validated_base.py, score_utils.py (kernel, pdinv) | CVScore.v | both scores in exact arithmetic; np.linalg.inv and the SVD branch of pdinv are arguments; Cholesky is written out |
| utils/local_score/score_utils.py (minimize) | Minimize.v | both loops in exact arithmetic; the objective, the product taken for slopes and the conjugate direction are arguments; not printing |
| utils/local_score/marginal_base.py, score_utils.py (gpr_multi_new, solve_chol, cov*, sq_dist) | Marginal.v | both scores in exact arithmetic; np.linalg.inv, the eigenvalue solver and the conjugate direction are arguments; not the test predictions of gpr_multi_new, not the ragged object array that recent numpy versions refuse |
| utils/independence/kernel_based.py (KCI), utils/kernel/* | CKCI.v | unconditional and conditional test with the gamma approximation, kernels with all width strategies, in exact arithmetic; np.linalg.pinv, the eigenvalue solver, the random choice of samples, the fitted Gaussian process and the gamma distribution are arguments |
| utils/independence/kernel_based.py (KCI, approximate_mode=False) | KCINull.v | spectral null distributions of both tests; the simulated chi-squares are an argument |
| utils/adapters.py, pc.py:30-47 on data | PCFisher.v | all, for the Fisher-z test without its cache; p-values enter as the outcome of their comparison with alpha; arrays of more than two dimensions are not modelled |
| one_component/olc.py | OLC.v | control flow of olc, all; normalize, cal_pval, fisher_test as real functions; surrogate_regression, covariances, xcum4 and the intercept are arguments; not printing |
| utils/independence/_base.py | IndepBase.v | resolution of variables, cache; not the name-mangled defaults |
| visual/* | Plot.v | lookups, patches; not coordinates |

### What is not modelled

Numerical code whose content is floating-point: the HSIC block test, the
fit of the Gaussian process of the conditional kernel test,
automatic differentiation, the nearest-neighbour entropies of mutual.py. Of the hierarchical learner: layout and drawing
in MakeGraph.py, the unused Orientation.py, and the lists AllCausalCluster
and GeneralPureClusters, which no result depends on. Log messages, warnings,
progress bars, argument parsing and the tests of the repository.

### Mutation testing

`seeded/LOG.jsonl` has one line per wrong program tried in a scratch copy. When a
lemma fails there it is admitted and the build goes on, so that the theorems
listed as failed are those whose proof depends on a failing lemma (a failing lemma
inside a Coq section is counted for every later lemma that uses it). A
failing proof shows that this proof no longer works, not that the statement is
false; the survivors are what the procedure looks for.

### Print Assumptions

* `Props/ANMProps.v`, closed: C88_subsample
  * C88_swap: ClassicalDedekindReals.sig_not_dec, ClassicalDedekindReals.sig_forall_dec, FunctionalExtensionality.functional_extensionality_dep
  * C88_nonneg: ClassicalDedekindReals.sig_not_dec, ClassicalDedekindReals.sig_forall_dec, FunctionalExtensionality.functional_extensionality_dep
  * C88_units: ClassicalDedekindReals.sig_not_dec, ClassicalDedekindReals.sig_forall_dec, FunctionalExtensionality.functional_extensionality_dep
  * C88_reversed: ClassicalDedekindReals.sig_not_dec, ClassicalDedekindReals.sig_forall_dec, FunctionalExtensionality.functional_extensionality_dep
  * C88_flat: ClassicalDedekindReals.sig_not_dec, ClassicalDedekindReals.sig_forall_dec, FunctionalExtensionality.functional_extensionality_dep
  * C88_interpolation: ClassicalDedekindReals.sig_not_dec, ClassicalDedekindReals.sig_forall_dec, FunctionalExtensionality.functional_extensionality_dep
  * C88_sample_order: ClassicalDedekindReals.sig_not_dec, ClassicalDedekindReals.sig_forall_dec, FunctionalExtensionality.functional_extensionality_dep
  * C88_sample_order_refuted: ClassicalDedekindReals.sig_not_dec, ClassicalDedekindReals.sig_forall_dec, FunctionalExtensionality.functional_extensionality_dep, Classical_Prop.classic
* `Props/AccuracyProps.v`, closed: C49_accepted, C49_dag, C49_perfect, C49_cpdag_bounds, C49_tpr_refuted, C49_empty_tpr, C49_fpr_refuted
* `Props/CKCIProps.v`, closed: 
  * C95_value: ClassicalDedekindReals.sig_not_dec, ClassicalDedekindReals.sig_forall_dec, FunctionalExtensionality.functional_extensionality_dep
  * C95_value_process: ClassicalDedekindReals.sig_not_dec, ClassicalDedekindReals.sig_forall_dec, FunctionalExtensionality.functional_extensionality_dep
  * C95_nonneg: ClassicalDedekindReals.sig_not_dec, ClassicalDedekindReals.sig_forall_dec, FunctionalExtensionality.functional_extensionality_dep
  * C95_units: ClassicalDedekindReals.sig_not_dec, ClassicalDedekindReals.sig_forall_dec, FunctionalExtensionality.functional_extensionality_dep, Classical_Prop.classic
  * C95_order: ClassicalDedekindReals.sig_not_dec, ClassicalDedekindReals.sig_forall_dec, FunctionalExtensionality.functional_extensionality_dep, Classical_Prop.classic
  * C95_constant_y: ClassicalDedekindReals.sig_not_dec, ClassicalDedekindReals.sig_forall_dec, FunctionalExtensionality.functional_extensionality_dep
  * C95_constant_y_process: ClassicalDedekindReals.sig_not_dec, ClassicalDedekindReals.sig_forall_dec, FunctionalExtensionality.functional_extensionality_dep
  * C95_few_samples: ClassicalDedekindReals.sig_not_dec, ClassicalDedekindReals.sig_forall_dec, FunctionalExtensionality.functional_extensionality_dep
  * C95_process_returns: ClassicalDedekindReals.sig_not_dec, ClassicalDedekindReals.sig_forall_dec, FunctionalExtensionality.functional_extensionality_dep, Classical_Prop.classic
  * C95_constant_z: ClassicalDedekindReals.sig_not_dec, ClassicalDedekindReals.sig_forall_dec, FunctionalExtensionality.functional_extensionality_dep
  * C95_unconditional: ClassicalDedekindReals.sig_not_dec, ClassicalDedekindReals.sig_forall_dec, FunctionalExtensionality.functional_extensionality_dep
  * C95_swap_refuted: ClassicalDedekindReals.sig_not_dec, ClassicalDedekindReals.sig_forall_dec, FunctionalExtensionality.functional_extensionality_dep
  * C95_example: ClassicalDedekindReals.sig_not_dec, ClassicalDedekindReals.sig_forall_dec, FunctionalExtensionality.functional_extensionality_dep, ClassicalEpsilon.constructive_indefinite_description, Classical_Prop.classic
* `Props/CVProps.v`, closed: C92_folds
  * C92_value: ClassicalDedekindReals.sig_not_dec, ClassicalDedekindReals.sig_forall_dec, FunctionalExtensionality.functional_extensionality_dep, Classical_Prop.classic
  * C92_returns: ClassicalDedekindReals.sig_not_dec, ClassicalDedekindReals.sig_forall_dec, FunctionalExtensionality.functional_extensionality_dep, Classical_Prop.classic
  * C92_likelihood_refuted: ClassicalDedekindReals.sig_not_dec, ClassicalDedekindReals.sig_forall_dec, FunctionalExtensionality.functional_extensionality_dep, Classical_Prop.classic
  * C92_order: ClassicalDedekindReals.sig_not_dec, ClassicalDedekindReals.sig_forall_dec, FunctionalExtensionality.functional_extensionality_dep, Classical_Prop.classic
  * C92_units: ClassicalDedekindReals.sig_not_dec, ClassicalDedekindReals.sig_forall_dec, FunctionalExtensionality.functional_extensionality_dep, Classical_Prop.classic
  * C92_bound: ClassicalDedekindReals.sig_not_dec, ClassicalDedekindReals.sig_forall_dec, FunctionalExtensionality.functional_extensionality_dep, Classical_Prop.classic
  * C92_few_samples: ClassicalDedekindReals.sig_not_dec, ClassicalDedekindReals.sig_forall_dec, FunctionalExtensionality.functional_extensionality_dep, Classical_Prop.classic
  * C92_arguments_refuted: ClassicalDedekindReals.sig_forall_dec, FunctionalExtensionality.functional_extensionality_dep
* `Props/CpdagProps.v`, closed: C13_dag2cpdag_skeleton_and_vstructures, C14_dag2cpdag_equivalence_class, C15_essential_iff_sound_partial, C15_essential_partial, C15_essential_chordal_partial, C15_essential_refuted, C15_rule3_misfire_refuted
* `Props/DagProps.v`, closed: C08_topo_sort_parents_first, C09_is_acyclic_decides, C10_is_d_separate_decides, C11_symmetric, C11_depends_on_set, C11_conditioned_endpoint, C12_adjacent_never_separated, C12_parents_separate
* `Props/DivergeProps.v`, closed: C62_round_trip_partial, C62_round_trip_triangles_partial, C62_round_trip_refuted, C62_equivalence_refuted, C32_fuel_irrelevant, C32_termination_refuted
* `Props/EntSimProps.v`, closed: C84_er, C84_given, C84_unknown, C84_weights, C84_no_ranges, C85_linear, C85_variable_scale, C85_linear_rejects, C84_pipeline, C85_nonlinear, C85_nonlinear_cyclic, C85_nonlinear_scale, C85_nonlinear_name, C85_pairwise
* `Props/EntropyKnnProps.v`, closed: 
  * C107_nearest: ClassicalDedekindReals.sig_not_dec, ClassicalDedekindReals.sig_forall_dec, FunctionalExtensionality.functional_extensionality_dep, Classical_Prop.classic
  * C107_few_rows: ClassicalDedekindReals.sig_not_dec, ClassicalDedekindReals.sig_forall_dec, FunctionalExtensionality.functional_extensionality_dep, Classical_Prop.classic
  * C107_units: ClassicalDedekindReals.sig_not_dec, ClassicalDedekindReals.sig_forall_dec, FunctionalExtensionality.functional_extensionality_dep, Classical_Prop.classic
  * C107_two_refuted: ClassicalDedekindReals.sig_not_dec, ClassicalDedekindReals.sig_forall_dec, FunctionalExtensionality.functional_extensionality_dep, Classical_Prop.classic
* `Props/EntropyLossProps.v`, closed: 
  * C83_units: ClassicalDedekindReals.sig_not_dec, ClassicalDedekindReals.sig_forall_dec, FunctionalExtensionality.functional_extensionality_dep, Classical_Prop.classic
  * C83_unbounded: ClassicalDedekindReals.sig_not_dec, ClassicalDedekindReals.sig_forall_dec, FunctionalExtensionality.functional_extensionality_dep, Classical_Prop.classic
  * C83_pooled: ClassicalDedekindReals.sig_not_dec, ClassicalDedekindReals.sig_forall_dec, FunctionalExtensionality.functional_extensionality_dep, Classical_Prop.classic
  * C83_sum_of_variables_refuted: ClassicalDedekindReals.sig_not_dec, ClassicalDedekindReals.sig_forall_dec, FunctionalExtensionality.functional_extensionality_dep, Classical_Prop.classic
  * C83_at_most_normal: ClassicalDedekindReals.sig_not_dec, ClassicalDedekindReals.sig_forall_dec, FunctionalExtensionality.functional_extensionality_dep, Classical_Prop.classic
  * C83_nan: ClassicalDedekindReals.sig_not_dec, ClassicalDedekindReals.sig_forall_dec, FunctionalExtensionality.functional_extensionality_dep, Classical_Prop.classic
  * C83_constants: ClassicalDedekindReals.sig_not_dec, ClassicalDedekindReals.sig_forall_dec, FunctionalExtensionality.functional_extensionality_dep
* `Props/EntropyMoreProps.v`, closed: 
  * C106_units: ClassicalDedekindReals.sig_not_dec, ClassicalDedekindReals.sig_forall_dec, FunctionalExtensionality.functional_extensionality_dep, Classical_Prop.classic
  * C106_no_variance: ClassicalDedekindReals.sig_not_dec, ClassicalDedekindReals.sig_forall_dec, FunctionalExtensionality.functional_extensionality_dep, Classical_Prop.classic
  * C106_bounds: ClassicalDedekindReals.sig_not_dec, ClassicalDedekindReals.sig_forall_dec, FunctionalExtensionality.functional_extensionality_dep, Classical_Prop.classic
  * C106_nan: ClassicalDedekindReals.sig_not_dec, ClassicalDedekindReals.sig_forall_dec, FunctionalExtensionality.functional_extensionality_dep, Classical_Prop.classic
* `Props/ExpmProps.v`, closed: 
  * C90_truncated: ClassicalDedekindReals.sig_not_dec, ClassicalDedekindReals.sig_forall_dec, FunctionalExtensionality.functional_extensionality_dep
  * C90_coefficients: ClassicalDedekindReals.sig_not_dec, ClassicalDedekindReals.sig_forall_dec, FunctionalExtensionality.functional_extensionality_dep
  * C90_small: ClassicalDedekindReals.sig_not_dec, ClassicalDedekindReals.sig_forall_dec, FunctionalExtensionality.functional_extensionality_dep, Classical_Prop.classic
  * C90_accuracy: ClassicalDedekindReals.sig_not_dec, ClassicalDedekindReals.sig_forall_dec, FunctionalExtensionality.functional_extensionality_dep, Classical_Prop.classic
  * C90_exists: ClassicalDedekindReals.sig_not_dec, ClassicalDedekindReals.sig_forall_dec, FunctionalExtensionality.functional_extensionality_dep
  * C90_power_batch: ClassicalDedekindReals.sig_forall_dec, FunctionalExtensionality.functional_extensionality_dep
  * C90_batch: ClassicalDedekindReals.sig_not_dec, ClassicalDedekindReals.sig_forall_dec, FunctionalExtensionality.functional_extensionality_dep, Classical_Prop.classic
  * C90_backward: ClassicalDedekindReals.sig_not_dec, ClassicalDedekindReals.sig_forall_dec, FunctionalExtensionality.functional_extensionality_dep, Classical_Prop.classic
  * C90_derivative: ClassicalDedekindReals.sig_not_dec, ClassicalDedekindReals.sig_forall_dec, FunctionalExtensionality.functional_extensionality_dep
  * C90_gradient: ClassicalDedekindReals.sig_not_dec, ClassicalDedekindReals.sig_forall_dec, FunctionalExtensionality.functional_extensionality_dep, Classical_Prop.classic
  * C90_linear_refuted: ClassicalDedekindReals.sig_not_dec, ClassicalDedekindReals.sig_forall_dec, FunctionalExtensionality.functional_extensionality_dep, Classical_Prop.classic
* `Props/FisherDataProps.v`, closed: 
  * C97_value: ClassicalDedekindReals.sig_not_dec, ClassicalDedekindReals.sig_forall_dec, FunctionalExtensionality.functional_extensionality_dep, Classical_Prop.classic
  * C97_constant: ClassicalDedekindReals.sig_not_dec, ClassicalDedekindReals.sig_forall_dec, FunctionalExtensionality.functional_extensionality_dep, Classical_Prop.classic
  * C97_order: ClassicalDedekindReals.sig_not_dec, ClassicalDedekindReals.sig_forall_dec, FunctionalExtensionality.functional_extensionality_dep, Classical_Prop.classic
  * C97_units: ClassicalDedekindReals.sig_not_dec, ClassicalDedekindReals.sig_forall_dec, FunctionalExtensionality.functional_extensionality_dep, Classical_Prop.classic
  * C97_function: ClassicalDedekindReals.sig_not_dec, ClassicalDedekindReals.sig_forall_dec, FunctionalExtensionality.functional_extensionality_dep, Classical_Prop.classic
  * C97_same_as_class: ClassicalDedekindReals.sig_not_dec, ClassicalDedekindReals.sig_forall_dec, FunctionalExtensionality.functional_extensionality_dep, Classical_Prop.classic
  * C97_column_vectors: ClassicalDedekindReals.sig_not_dec, ClassicalDedekindReals.sig_forall_dec, FunctionalExtensionality.functional_extensionality_dep, Classical_Prop.classic
  * C97_first_two: ClassicalDedekindReals.sig_not_dec, ClassicalDedekindReals.sig_forall_dec, FunctionalExtensionality.functional_extensionality_dep, Classical_Prop.classic
  * C97_ignores_y: ClassicalDedekindReals.sig_not_dec, ClassicalDedekindReals.sig_forall_dec, FunctionalExtensionality.functional_extensionality_dep, Classical_Prop.classic
  * C97_missing_column: ClassicalDedekindReals.sig_not_dec, ClassicalDedekindReals.sig_forall_dec, FunctionalExtensionality.functional_extensionality_dep, Classical_Prop.classic
  * C97_matrix_refuted: ClassicalDedekindReals.sig_not_dec, ClassicalDedekindReals.sig_forall_dec, FunctionalExtensionality.functional_extensionality_dep, Classical_Prop.classic
* `Props/FisherZProps.v`, closed: 
  * C69_partial_correlation: ClassicalDedekindReals.sig_not_dec, ClassicalDedekindReals.sig_forall_dec, FunctionalExtensionality.functional_extensionality_dep, Classical_Prop.classic
  * C69_p_value: ClassicalDedekindReals.sig_not_dec, ClassicalDedekindReals.sig_forall_dec, FunctionalExtensionality.functional_extensionality_dep, Classical_Prop.classic
  * C69_few_records: ClassicalDedekindReals.sig_not_dec, ClassicalDedekindReals.sig_forall_dec, FunctionalExtensionality.functional_extensionality_dep, Classical_Prop.classic
  * C69_symmetric: ClassicalDedekindReals.sig_not_dec, ClassicalDedekindReals.sig_forall_dec, FunctionalExtensionality.functional_extensionality_dep, Classical_Prop.classic
  * C69_cache_transparent: ClassicalDedekindReals.sig_not_dec, ClassicalDedekindReals.sig_forall_dec, FunctionalExtensionality.functional_extensionality_dep, Classical_Prop.classic
* `Props/GESProps.v`, closed: C28_every_subset_once, C28_find_subset_include, C28_check_clique, C29_path_condition, C30_forward_scan_exact, C30_backward_scan_exact, C31_operator_scores_exact, C31_table_correct, C32_one_edge_per_step_and_termination, C33_score_and_local_optimum, C50_insert_effect, C50_delete_effect
* `Props/GESScoreProps.v`, closed: C67_insert_gain_is_score_difference, C67_delete_gain_is_score_difference, C68_reported_score_is_total_partial, C68_stuck_after_wrong_conversion, C68_three_variables, C68_reported_score_refuted
* `Props/GraphProps.v`, closed: C01_histories_stay_consistent, C01_constructor, C02_add_edge_read_back, C02_add_edge_succeeds_iff, C02_remove_edge, C02_remove_node, C03_edges_listing, C03_degree_sums, C04_raising_call_changes_nothing, C04_add_edges_prefix, C04_remove_nodes_prefix, C05_digraph_marks, C05_pdag_marks, C06_self_loop_lost, C06_read_back_refuted, C07_to_numpy_entries, C07_graph_equal_iff, C07_graph_equal_null_refuted
* `Props/HSICProps.v`, closed: 
  * C87_statistic: ClassicalDedekindReals.sig_not_dec, ClassicalDedekindReals.sig_forall_dec, FunctionalExtensionality.functional_extensionality_dep
  * C87_nonneg: ClassicalDedekindReals.sig_not_dec, ClassicalDedekindReals.sig_forall_dec, FunctionalExtensionality.functional_extensionality_dep
  * C87_self: ClassicalDedekindReals.sig_not_dec, ClassicalDedekindReals.sig_forall_dec, FunctionalExtensionality.functional_extensionality_dep, Classical_Prop.classic
  * C87_symmetric: ClassicalDedekindReals.sig_not_dec, ClassicalDedekindReals.sig_forall_dec, FunctionalExtensionality.functional_extensionality_dep
  * C87_sample_order: ClassicalDedekindReals.sig_not_dec, ClassicalDedekindReals.sig_forall_dec, FunctionalExtensionality.functional_extensionality_dep
  * C87_units: ClassicalDedekindReals.sig_not_dec, ClassicalDedekindReals.sig_forall_dec, FunctionalExtensionality.functional_extensionality_dep
  * C87_test_units: ClassicalDedekindReals.sig_not_dec, ClassicalDedekindReals.sig_forall_dec, FunctionalExtensionality.functional_extensionality_dep
  * C87_decides: ClassicalDedekindReals.sig_not_dec, ClassicalDedekindReals.sig_forall_dec, FunctionalExtensionality.functional_extensionality_dep
  * C87_parameters: ClassicalDedekindReals.sig_not_dec, ClassicalDedekindReals.sig_forall_dec, FunctionalExtensionality.functional_extensionality_dep, Classical_Prop.classic
  * C87_threshold: ClassicalDedekindReals.sig_not_dec, ClassicalDedekindReals.sig_forall_dec, FunctionalExtensionality.functional_extensionality_dep, Classical_Prop.classic
  * C87_level: ClassicalDedekindReals.sig_not_dec, ClassicalDedekindReals.sig_forall_dec, FunctionalExtensionality.functional_extensionality_dep
* `Props/HawkesSimProps.v`, closed: C101_interval, C101_kernels, C101_raises, C101_insem
  * C101_table: ClassicalDedekindReals.sig_forall_dec, FunctionalExtensionality.functional_extensionality_dep
  * C101_events: ClassicalDedekindReals.sig_forall_dec, FunctionalExtensionality.functional_extensionality_dep
  * C101_positions: ClassicalDedekindReals.sig_forall_dec, FunctionalExtensionality.functional_extensionality_dep
  * C101_positions_refuted: ClassicalDedekindReals.sig_not_dec, ClassicalDedekindReals.sig_forall_dec, FunctionalExtensionality.functional_extensionality_dep
  * C101_learn: ClassicalDedekindReals.sig_not_dec, ClassicalDedekindReals.sig_forall_dec, FunctionalExtensionality.functional_extensionality_dep
* `Props/KCINullProps.v`, closed: 
  * C96_value: ClassicalDedekindReals.sig_not_dec, ClassicalDedekindReals.sig_forall_dec, FunctionalExtensionality.functional_extensionality_dep
  * C96_moments: ClassicalDedekindReals.sig_forall_dec, FunctionalExtensionality.functional_extensionality_dep
  * C96_units: ClassicalDedekindReals.sig_not_dec, ClassicalDedekindReals.sig_forall_dec, FunctionalExtensionality.functional_extensionality_dep
  * C96_order: ClassicalDedekindReals.sig_not_dec, ClassicalDedekindReals.sig_forall_dec, FunctionalExtensionality.functional_extensionality_dep
  * C96_constant: ClassicalDedekindReals.sig_not_dec, ClassicalDedekindReals.sig_forall_dec, FunctionalExtensionality.functional_extensionality_dep
  * C96_returns: ClassicalDedekindReals.sig_not_dec, ClassicalDedekindReals.sig_forall_dec, FunctionalExtensionality.functional_extensionality_dep
  * C96_value_conditional: ClassicalDedekindReals.sig_not_dec, ClassicalDedekindReals.sig_forall_dec, FunctionalExtensionality.functional_extensionality_dep
  * C96_value_process: ClassicalDedekindReals.sig_not_dec, ClassicalDedekindReals.sig_forall_dec, FunctionalExtensionality.functional_extensionality_dep
  * C96_moments_conditional: ClassicalDedekindReals.sig_forall_dec, FunctionalExtensionality.functional_extensionality_dep
  * C96_constant_y: ClassicalDedekindReals.sig_not_dec, ClassicalDedekindReals.sig_forall_dec, FunctionalExtensionality.functional_extensionality_dep
  * C96_units_conditional: ClassicalDedekindReals.sig_not_dec, ClassicalDedekindReals.sig_forall_dec, FunctionalExtensionality.functional_extensionality_dep, Classical_Prop.classic
  * C96_order_conditional: ClassicalDedekindReals.sig_not_dec, ClassicalDedekindReals.sig_forall_dec, FunctionalExtensionality.functional_extensionality_dep, Classical_Prop.classic
  * C96_example: ClassicalDedekindReals.sig_not_dec, ClassicalDedekindReals.sig_forall_dec, FunctionalExtensionality.functional_extensionality_dep, ClassicalEpsilon.constructive_indefinite_description, Classical_Prop.classic
* `Props/KCIProps.v`, closed: 
  * C70_symmetric: ClassicalDedekindReals.sig_not_dec, ClassicalDedekindReals.sig_forall_dec, FunctionalExtensionality.functional_extensionality_dep
  * C70_units: ClassicalDedekindReals.sig_not_dec, ClassicalDedekindReals.sig_forall_dec, FunctionalExtensionality.functional_extensionality_dep
  * C70_sample_order: ClassicalDedekindReals.sig_not_dec, ClassicalDedekindReals.sig_forall_dec, FunctionalExtensionality.functional_extensionality_dep
  * C70_constant: ClassicalDedekindReals.sig_not_dec, ClassicalDedekindReals.sig_forall_dec, FunctionalExtensionality.functional_extensionality_dep
  * C70_nonneg: ClassicalDedekindReals.sig_not_dec, ClassicalDedekindReals.sig_forall_dec, FunctionalExtensionality.functional_extensionality_dep
* `Props/KernelProps.v`, closed: C45_center_iff, C45_symmetric, C45_nonsymmetric_refuted, C46_dist2, C46_clamp_inactive, C60_score_dist2, C60_ndarray_refuted, C48_stale_matrix, C48_refuted, C48_transparent, C48_polynomial_stale, C48_gaussian_width, C61_linear_statistic
* `Props/LHMProps.v`, closed: C74_every_state_is_forest, C74_result_is_forest, C74_one_parent_refuted, C75_round_progress, C75_loop_ends_or_idles, C75_idle_runs_forever, C75_termination_refuted, C76_only_two_exceptions, C76_no_index_error_refuted, C77_drawn_edges, C77_leftovers_are_joined, C77_acyclic_graph_refuted, C78_merge_without_test, C78_members_pass_tests_refuted
* `Props/LHSProps.v`, closed: C40_merge_list, C40_inputs_kept, C40_disjoint_unchanged, C40_order_irrelevant, C41_refuted, C41_all_mislabelled, C41_latents_mislabelled, C41_degenerate_correct, C42_order_permutation, C42_order_total, C42_root_minimal, C55_first_descendant, C55_observed_member_refuted, C56_find_clusters, C56_check_sound, C56_check_complete, C56_disjoint_refuted
* `Props/LagProps.v`, closed: 
  * C104_result: ClassicalDedekindReals.sig_not_dec, ClassicalDedekindReals.sig_forall_dec, FunctionalExtensionality.functional_extensionality_dep
  * C104_percentile: ClassicalDedekindReals.sig_forall_dec, FunctionalExtensionality.functional_extensionality_dep
  * C104_ends: ClassicalDedekindReals.sig_not_dec, ClassicalDedekindReals.sig_forall_dec, FunctionalExtensionality.functional_extensionality_dep
  * C104_reference: ClassicalDedekindReals.sig_not_dec, ClassicalDedekindReals.sig_forall_dec, FunctionalExtensionality.functional_extensionality_dep
  * C104_three: ClassicalDedekindReals.sig_not_dec, ClassicalDedekindReals.sig_forall_dec, FunctionalExtensionality.functional_extensionality_dep
  * C104_raises: ClassicalDedekindReals.sig_not_dec, ClassicalDedekindReals.sig_forall_dec, FunctionalExtensionality.functional_extensionality_dep
* `Props/LinearEntProps.v`, closed: C82_trained, C82_dag, C82_anneal, C82_l2_no_effect, C82_only_exception, C82_train_dam_refuted
* `Props/LingamProps.v`, closed: C43_lower_triangular, C43_alpha_ignored, C43_recovery_refuted, C43_row_order, C43_b_order, C57_zeros_ignore_data, C57_good_order_refuted
* `Props/MakeGraphProps.v`, closed: C102_keys, C102_latents, C102_roots, C102_each_once, C102_edges, C102_graph, C102_repeated_refuted, C102_names_refuted, C102_same_members_refuted, C102_impure
* `Props/MarginalProps.v`, closed: 
  * C94_value: ClassicalDedekindReals.sig_not_dec, ClassicalDedekindReals.sig_forall_dec, FunctionalExtensionality.functional_extensionality_dep, Classical_Prop.classic
  * C94_returns: ClassicalDedekindReals.sig_not_dec, ClassicalDedekindReals.sig_forall_dec, FunctionalExtensionality.functional_extensionality_dep, Classical_Prop.classic
  * C94_unfitted: ClassicalDedekindReals.sig_not_dec, ClassicalDedekindReals.sig_forall_dec, FunctionalExtensionality.functional_extensionality_dep, Classical_Prop.classic
  * C94_ignores: ClassicalDedekindReals.sig_not_dec, ClassicalDedekindReals.sig_forall_dec, FunctionalExtensionality.functional_extensionality_dep, Classical_Prop.classic
* `Props/MeekProps.v`, closed: C16_meek_terminates_and_closes, C16_meek_fuel_irrelevant, C17_rule1_sound, C17_rule2_sound, C17_rule3_sound_partial, C17_meek_sound_partial, C17_rule3_refuted, C17_rule4_refuted
* `Props/MetricProps.v`, closed: C26_shd_defined_and_bounded, C26_shd_zero_iff_same_edges, C26_shd_symmetric, C26_shd_triangle, C26_shd_one_edit, C26_shd_mismatch, C27_skeleton_counts, C27_arrow_counts, C27_directed_counts, C27_between_zero_and_one, C27_swap, C27_self
* `Props/MinimizeProps.v`, closed: 
  * C93_decreases: ClassicalDedekindReals.sig_not_dec, ClassicalDedekindReals.sig_forall_dec, FunctionalExtensionality.functional_extensionality_dep
  * C93_returns: ClassicalDedekindReals.sig_not_dec, ClassicalDedekindReals.sig_forall_dec, FunctionalExtensionality.functional_extensionality_dep
  * C93_budget: ClassicalDedekindReals.sig_not_dec, ClassicalDedekindReals.sig_forall_dec, FunctionalExtensionality.functional_extensionality_dep
  * C93_stuck: ClassicalDedekindReals.sig_not_dec, ClassicalDedekindReals.sig_forall_dec, FunctionalExtensionality.functional_extensionality_dep
  * C93_best_refuted: ClassicalDedekindReals.sig_not_dec, ClassicalDedekindReals.sig_forall_dec, FunctionalExtensionality.functional_extensionality_dep
  * C93_failures_refuted: ClassicalDedekindReals.sig_not_dec, ClassicalDedekindReals.sig_forall_dec, FunctionalExtensionality.functional_extensionality_dep
* `Props/MutualProps.v`, closed: 
  * C105_histogram: ClassicalDedekindReals.sig_forall_dec, FunctionalExtensionality.functional_extensionality_dep
  * C105_value: ClassicalDedekindReals.sig_not_dec, ClassicalDedekindReals.sig_forall_dec, FunctionalExtensionality.functional_extensionality_dep, Classical_Prop.classic
  * C105_normalized: ClassicalDedekindReals.sig_not_dec, ClassicalDedekindReals.sig_forall_dec, FunctionalExtensionality.functional_extensionality_dep, Classical_Prop.classic
  * C105_units: ClassicalDedekindReals.sig_not_dec, ClassicalDedekindReals.sig_forall_dec, FunctionalExtensionality.functional_extensionality_dep, Classical_Prop.classic
  * C105_symmetric: ClassicalDedekindReals.sig_not_dec, ClassicalDedekindReals.sig_forall_dec, FunctionalExtensionality.functional_extensionality_dep, Classical_Prop.classic
  * C105_raises: ClassicalDedekindReals.sig_not_dec, ClassicalDedekindReals.sig_forall_dec, FunctionalExtensionality.functional_extensionality_dep, Classical_Prop.classic
* `Props/NotearsNetProps.v`, closed: C80_linear, C80_networks, C80_up_to_four, C81_packing, C81_mlp_trained, C81_sobolev_trained, C81_no_edge_no_influence, C81_only_exception, C81_no_iterations_refuted, C81_edge_without_influence_refuted, C81_threshold_refuted
* `Props/NotearsProps.v`, closed: C44_linear, C44_mlp, C44_sobolev, C44_ent, C58_gradient, C59_result, C59_rho_max_error, C59_exact_zero, C59_dag_refuted
* `Props/OLCProps.v`, closed: C73_shape_partial, C73_early_arrows_without_coefficient, C73_returns_refuted
  * C71_first_stage: ClassicalDedekindReals.sig_not_dec, ClassicalDedekindReals.sig_forall_dec, FunctionalExtensionality.functional_extensionality_dep, Classical_Prop.classic
  * C71_direction_is_column_order: ClassicalDedekindReals.sig_not_dec, ClassicalDedekindReals.sig_forall_dec, FunctionalExtensionality.functional_extensionality_dep, Classical_Prop.classic
  * C72_fisher_below: ClassicalDedekindReals.sig_not_dec, ClassicalDedekindReals.sig_forall_dec, FunctionalExtensionality.functional_extensionality_dep, Classical_Prop.classic
  * C72_second_stage_idle: ClassicalDedekindReals.sig_not_dec, ClassicalDedekindReals.sig_forall_dec, FunctionalExtensionality.functional_extensionality_dep, Classical_Prop.classic
* `Props/PCFisherProps.v`, closed: 
  * C98_edges: ClassicalDedekindReals.sig_not_dec, ClassicalDedekindReals.sig_forall_dec, FunctionalExtensionality.functional_extensionality_dep, Classical_Prop.classic
  * C98_faithful: ClassicalDedekindReals.sig_not_dec, ClassicalDedekindReals.sig_forall_dec, FunctionalExtensionality.functional_extensionality_dep, Classical_Prop.classic
  * C98_units: ClassicalDedekindReals.sig_not_dec, ClassicalDedekindReals.sig_forall_dec, FunctionalExtensionality.functional_extensionality_dep, Classical_Prop.classic
  * C98_order: ClassicalDedekindReals.sig_not_dec, ClassicalDedekindReals.sig_forall_dec, FunctionalExtensionality.functional_extensionality_dep, Classical_Prop.classic
  * C98_columns: ClassicalDedekindReals.sig_not_dec, ClassicalDedekindReals.sig_forall_dec, FunctionalExtensionality.functional_extensionality_dep, Classical_Prop.classic
  * C98_constant: ClassicalDedekindReals.sig_not_dec, ClassicalDedekindReals.sig_forall_dec, FunctionalExtensionality.functional_extensionality_dep, Classical_Prop.classic
  * C98_one_record: ClassicalDedekindReals.sig_not_dec, ClassicalDedekindReals.sig_forall_dec, FunctionalExtensionality.functional_extensionality_dep, Classical_Prop.classic
  * C98_frames: ClassicalDedekindReals.sig_not_dec, ClassicalDedekindReals.sig_forall_dec, FunctionalExtensionality.functional_extensionality_dep, Classical_Prop.classic
  * C98_refused: ClassicalDedekindReals.sig_not_dec, ClassicalDedekindReals.sig_forall_dec, FunctionalExtensionality.functional_extensionality_dep, Classical_Prop.classic
* `Props/PCProps.v`, closed: C20_search_removes_iff_accepted, C20_repeated_names, C21_adjacency_search_order_independent, C22_oracle_search_skeleton, C23_pc_oracle_equals_dag2cpdag, C24_pc_keeps_skeleton, C25_cache_key_identifies_query, C25_cache_transparent, C25_dsep_cache_transparent
* `Props/PadeProps.v`, closed: 
  * C91_pade: ClassicalDedekindReals.sig_forall_dec, FunctionalExtensionality.functional_extensionality_dep
  * C91_accuracy: ClassicalDedekindReals.sig_not_dec, ClassicalDedekindReals.sig_forall_dec, FunctionalExtensionality.functional_extensionality_dep, Classical_Prop.classic
  * C91_invertible: ClassicalDedekindReals.sig_not_dec, ClassicalDedekindReals.sig_forall_dec, FunctionalExtensionality.functional_extensionality_dep, Classical_Prop.classic
  * C91_returns: ClassicalDedekindReals.sig_not_dec, ClassicalDedekindReals.sig_forall_dec, FunctionalExtensionality.functional_extensionality_dep, Classical_Prop.classic
  * C91_returns_refuted: ClassicalDedekindReals.sig_not_dec, ClassicalDedekindReals.sig_forall_dec, FunctionalExtensionality.functional_extensionality_dep, Classical_Prop.classic
  * C91_gradient: ClassicalDedekindReals.sig_not_dec, ClassicalDedekindReals.sig_forall_dec, FunctionalExtensionality.functional_extensionality_dep, Classical_Prop.classic
  * C91_guard: ClassicalDedekindReals.sig_not_dec, ClassicalDedekindReals.sig_forall_dec, FunctionalExtensionality.functional_extensionality_dep, Classical_Prop.classic
* `Props/Pdag2DagProps.v`, closed: C18_pdag2dag_consistent_extension, C19_pdag2dag_terminates_iff_extendable, C19_bidirected_never_returns
* `Props/PerformanceProps.v`, closed: C63_matrix_scores, C63_negative_threshold, C63_graph_truth_fails, C63_digraph_truth_fails, C63_graph_estimate_is_skeleton
* `Props/PermutationProps.v`, closed: C89_features_unbiased
  * C89_unbiased: ClassicalDedekindReals.sig_forall_dec, FunctionalExtensionality.functional_extensionality_dep
  * C89_biased: ClassicalDedekindReals.sig_forall_dec, FunctionalExtensionality.functional_extensionality_dep
  * C89_features: ClassicalDedekindReals.sig_forall_dec, FunctionalExtensionality.functional_extensionality_dep
  * C89_pvalue_range: ClassicalDedekindReals.sig_forall_dec, FunctionalExtensionality.functional_extensionality_dep
  * C89_exact: ClassicalDedekindReals.sig_forall_dec, FunctionalExtensionality.functional_extensionality_dep
  * C89_exact_refuted: ClassicalDedekindReals.sig_forall_dec, FunctionalExtensionality.functional_extensionality_dep
  * C89_constant: ClassicalDedekindReals.sig_forall_dec, FunctionalExtensionality.functional_extensionality_dep
  * C89_constant_statistic: ClassicalDedekindReals.sig_forall_dec, FunctionalExtensionality.functional_extensionality_dep
  * C89_constant_spectral: ClassicalDedekindReals.sig_forall_dec, FunctionalExtensionality.functional_extensionality_dep
  * C89_permutation: ClassicalDedekindReals.sig_forall_dec, FunctionalExtensionality.functional_extensionality_dep
  * C89_spectral: ClassicalDedekindReals.sig_forall_dec, FunctionalExtensionality.functional_extensionality_dep
  * C89_sample_order: ClassicalDedekindReals.sig_forall_dec, FunctionalExtensionality.functional_extensionality_dep
* `Props/PlotProps.v`, closed: C47_string_nodes, C47_integer_edge_fails, C47_refuted, C47_integer_latent_ignored
* `Props/PopulationProps.v`, closed: 
  * C86_invertible: ClassicalDedekindReals.sig_forall_dec, FunctionalExtensionality.functional_extensionality_dep
  * C86_covariance: ClassicalDedekindReals.sig_not_dec, ClassicalDedekindReals.sig_forall_dec, FunctionalExtensionality.functional_extensionality_dep
  * C86_risk: ClassicalDedekindReals.sig_not_dec, ClassicalDedekindReals.sig_forall_dec, FunctionalExtensionality.functional_extensionality_dep
  * C86_equal_scales: ClassicalDedekindReals.sig_not_dec, ClassicalDedekindReals.sig_forall_dec, FunctionalExtensionality.functional_extensionality_dep, Classical_Prop.classic
  * C86_rejects: ClassicalDedekindReals.sig_not_dec, ClassicalDedekindReals.sig_forall_dec, FunctionalExtensionality.functional_extensionality_dep
  * C86_risk_refuted: ClassicalDedekindReals.sig_not_dec, ClassicalDedekindReals.sig_forall_dec, FunctionalExtensionality.functional_extensionality_dep
* `Props/SHPEMProps.v`, closed: 
  * C100_run: ClassicalDedekindReals.sig_not_dec, ClassicalDedekindReals.sig_forall_dec, FunctionalExtensionality.functional_extensionality_dep, Classical_Prop.classic
  * C100_ends: ClassicalDedekindReals.sig_not_dec, ClassicalDedekindReals.sig_forall_dec, FunctionalExtensionality.functional_extensionality_dep, Classical_Prop.classic
  * C100_best: ClassicalDedekindReals.sig_not_dec, ClassicalDedekindReals.sig_forall_dec, FunctionalExtensionality.functional_extensionality_dep, Classical_Prop.classic
  * C100_root: ClassicalDedekindReals.sig_not_dec, ClassicalDedekindReals.sig_forall_dec, FunctionalExtensionality.functional_extensionality_dep, Classical_Prop.classic
  * C100_reported_refuted: ClassicalDedekindReals.sig_not_dec, ClassicalDedekindReals.sig_forall_dec, FunctionalExtensionality.functional_extensionality_dep, Classical_Prop.classic
* `Props/SHPGraphProps.v`, closed: 
  * C103_fit: ClassicalDedekindReals.sig_not_dec, ClassicalDedekindReals.sig_forall_dec, FunctionalExtensionality.functional_extensionality_dep, Classical_Prop.classic
  * C103_fit_EM: ClassicalDedekindReals.sig_not_dec, ClassicalDedekindReals.sig_forall_dec, FunctionalExtensionality.functional_extensionality_dep, Classical_Prop.classic
  * C103_again: ClassicalDedekindReals.sig_not_dec, ClassicalDedekindReals.sig_forall_dec, FunctionalExtensionality.functional_extensionality_dep, Classical_Prop.classic
  * C103_shared: ClassicalDedekindReals.sig_not_dec, ClassicalDedekindReals.sig_forall_dec, FunctionalExtensionality.functional_extensionality_dep, Classical_Prop.classic
* `Props/SHPProps.v`, closed: C35_check_DAG_exact, C34_hill_climb, C34_influences_acyclic, C34_score, C34_terminates, C51_default_interval_fails, C51_no_edge_can_be_scored
* `Props/SHPTableProps.v`, closed: 
  * C99_table: ClassicalDedekindReals.sig_not_dec, ClassicalDedekindReals.sig_forall_dec, FunctionalExtensionality.functional_extensionality_dep
  * C99_counts: ClassicalDedekindReals.sig_not_dec, ClassicalDedekindReals.sig_forall_dec, FunctionalExtensionality.functional_extensionality_dep
  * C99_influence: ClassicalDedekindReals.sig_not_dec, ClassicalDedekindReals.sig_forall_dec, FunctionalExtensionality.functional_extensionality_dep, Classical_Prop.classic
  * C99_integral: ClassicalDedekindReals.sig_not_dec, ClassicalDedekindReals.sig_forall_dec, FunctionalExtensionality.functional_extensionality_dep, Classical_Prop.classic
  * C99_span: ClassicalDedekindReals.sig_not_dec, ClassicalDedekindReals.sig_forall_dec, FunctionalExtensionality.functional_extensionality_dep
  * C99_calendar: ClassicalDedekindReals.sig_forall_dec, FunctionalExtensionality.functional_extensionality_dep
  * C99_order: ClassicalDedekindReals.sig_not_dec, ClassicalDedekindReals.sig_forall_dec, FunctionalExtensionality.functional_extensionality_dep
  * C99_clock: ClassicalDedekindReals.sig_not_dec, ClassicalDedekindReals.sig_forall_dec, FunctionalExtensionality.functional_extensionality_dep
  * C99_clock_grid: ClassicalDedekindReals.sig_not_dec, ClassicalDedekindReals.sig_forall_dec, FunctionalExtensionality.functional_extensionality_dep
  * C99_clock_refuted: ClassicalDedekindReals.sig_not_dec, ClassicalDedekindReals.sig_forall_dec, FunctionalExtensionality.functional_extensionality_dep
  * C99_raises: ClassicalDedekindReals.sig_not_dec, ClassicalDedekindReals.sig_forall_dec, FunctionalExtensionality.functional_extensionality_dep
  * C99_interval_events: ClassicalDedekindReals.sig_forall_dec, FunctionalExtensionality.functional_extensionality_dep
* `Props/ScoreProps.v`, closed: C64_score_cache_transparent, C64_score_cache_iterators_refuted, C64_pvalue_cache_transparent, C64_names_are_numbers, C64_mixed_list_refuted
  * C65_bic_score_equivalent: ClassicalDedekindReals.sig_not_dec, ClassicalDedekindReals.sig_forall_dec, FunctionalExtensionality.functional_extensionality_dep, Classical_Prop.classic
  * C65_no_parents_zero: ClassicalDedekindReals.sig_not_dec, ClassicalDedekindReals.sig_forall_dec, FunctionalExtensionality.functional_extensionality_dep, Classical_Prop.classic
  * C66_bdeu_dag_fails: ClassicalDedekindReals.sig_not_dec, ClassicalDedekindReals.sig_forall_dec, FunctionalExtensionality.functional_extensionality_dep, Classical_Prop.classic
  * C66_bdeu_covered_edge: ClassicalDedekindReals.sig_not_dec, ClassicalDedekindReals.sig_forall_dec, FunctionalExtensionality.functional_extensionality_dep, Classical_Prop.classic
  * C66_bdeu_order_of_parents: ClassicalDedekindReals.sig_not_dec, ClassicalDedekindReals.sig_forall_dec, FunctionalExtensionality.functional_extensionality_dep, Classical_Prop.classic
* `Props/SimulatorProps.v`, closed: C36_linear_solves_sem, C36_cyclic_rejected, C37_timelag_recurrence, C37_wrong_lag_rejected, C38_pnl_columns_constant, C38_pnl_defined, C39_orientation_acyclic, C39_erdos_renyi, C39_erdos_renyi_needs_seed, C39_hawkes_edges, C52_nonlinear_solves_sem, C52_func_type_ignored, C52_mim_refuted, C53_nonlinear_recurrence, C53_stationary_refuted, C54_cos_is_linear, C54_default_length_fails, C54_activation_first_fails
* `Props/TetradProps.v`, closed: 
  * C79_units: ClassicalDedekindReals.sig_not_dec, ClassicalDedekindReals.sig_forall_dec, FunctionalExtensionality.functional_extensionality_dep
  * C79_sample_order: ClassicalDedekindReals.sig_not_dec, ClassicalDedekindReals.sig_forall_dec, FunctionalExtensionality.functional_extensionality_dep
  * C79_pair_symmetry: ClassicalDedekindReals.sig_not_dec, ClassicalDedekindReals.sig_forall_dec, FunctionalExtensionality.functional_extensionality_dep
  * C79_tests_the_tetrad: ClassicalDedekindReals.sig_forall_dec, FunctionalExtensionality.functional_extensionality_dep
  * C79_variance_of_other_tetrad: ClassicalDedekindReals.sig_forall_dec, FunctionalExtensionality.functional_extensionality_dep
  * C79_variance_right_iff: ClassicalDedekindReals.sig_forall_dec, FunctionalExtensionality.functional_extensionality_dep
  * C79_exchange_refuted: ClassicalDedekindReals.sig_not_dec, ClassicalDedekindReals.sig_forall_dec, FunctionalExtensionality.functional_extensionality_dep
  * C79_decision: ClassicalDedekindReals.sig_not_dec, ClassicalDedekindReals.sig_forall_dec, FunctionalExtensionality.functional_extensionality_dep
  * C79_constant_column: ClassicalDedekindReals.sig_not_dec, ClassicalDedekindReals.sig_forall_dec, FunctionalExtensionality.functional_extensionality_dep
  * C79_only_exception: ClassicalDedekindReals.sig_not_dec, ClassicalDedekindReals.sig_forall_dec, FunctionalExtensionality.functional_extensionality_dep
