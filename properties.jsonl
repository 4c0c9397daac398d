{"id": "C01", "title": "query is exact", "statement": "InferenceEngine.query(observations)[v][s] equals the conditional probability P(v = s | observations) that the joint distribution (the product of all CPDs of the network) defines: the sum of the joint over all assignments with v = s that agree with the observations, divided by the sum over all assignments that agree with the observations.", "quantifier": "every acyclic network with a connected structure, every CPD table with non-negative entries, every set of valid observations, every queried variable and state, and every order in which the internal Python sets are iterated", "why_tests_cant": "The answer comes from triangulation, a greedy spanning tree and two rounds of messages; a test compares a few fixed networks, and set iteration order changes between runs.", "anchors": ["causalnex/inference/inference.py: InferenceEngine.query", "causalnex/ebaybbn/bbn.py: BBN.query, build_join_tree, triangulate, JoinTree.propagate, JoinTreeCliqueNode.pass_message, JoinTree.marginal"]}
{"id": "C02", "title": "query returns distributions", "statement": "Without observations every variable's returned marginals are non-negative and sum to 1. With observations of positive probability they are non-negative and sum to 1, and an observed variable has probability 1 on its observed state and 0 elsewhere. With observations of probability zero every returned number is 0.", "quantifier": "every connected acyclic network whose CPD columns are probability distributions, every set of valid observations", "why_tests_cant": "Normalisation has to hold for all tables and evidence sets, including zero-probability evidence.", "anchors": ["causalnex/inference/inference.py: InferenceEngine.query", "causalnex/ebaybbn/bbn.py: BBN.query"]}
{"id": "C03", "title": "query never fails internally", "statement": "For a connected acyclic network and valid observations query terminates and raises no ZeroDivisionError, KeyError, IndexError or AssertionError, whatever zeros the CPDs contain and in whatever order neighbours are visited.", "quantifier": "every connected acyclic network, every non-negative CPD table, every valid evidence, every neighbour order and every elimination tie-break", "why_tests_cant": "Division by a stale zero separator entry would need a rare combination of zeros and message order.", "anchors": ["causalnex/ebaybbn/bbn.py: JoinTreeCliqueNode.absorb, JoinTreeCliqueNode.project, build_join_tree, JoinTree.assign_clusters"]}
{"id": "C04", "title": "evidence is validated first", "statement": "query raises for an observation on an unknown variable and for a value outside the variable's domain, the error names the first offending observation, and every other set of observations is accepted.", "quantifier": "every network, every ordered set of observations", "why_tests_cant": "Acceptance and rejection must be exact over all inputs, not the sampled ones.", "anchors": ["causalnex/ebaybbn/bbn.py: BBN.validate_keyvals, BBN.query"]}
{"id": "C05", "title": "the join tree is a valid junction tree", "statement": "The tree that build_join_tree returns is a spanning tree over its clusters, every variable sits with all its parents in some cluster, no cluster contains another, and for each variable the clusters that contain it are connected through clusters that contain it.", "quantifier": "every connected acyclic network, every tie-break among equally good separators", "why_tests_cant": "Correctness of the greedy choice is a theorem about all graphs; tests check cluster names of two examples.", "anchors": ["causalnex/ebaybbn/bbn.py: build_join_tree, triangulate, record_cliques, make_moralized_copy, SepSet.insertable, SepSet.insert"]}
{"id": "C06", "title": "the network is recovered from its factors", "statement": "Building a network from one function per variable (arguments: the variable and its parents) terminates, associates each variable with its own function and makes its parents exactly the other arguments, whatever the order in which the functions are listed.", "quantifier": "every acyclic set of factors, every listing order", "why_tests_cant": "Variables are discovered by iterating until one argument is unaccounted for; ordering and termination range over all DAGs.", "anchors": ["causalnex/ebaybbn/utils.py: get_original_factors", "causalnex/ebaybbn/bbn.py: build_bbn"]}
{"id": "C07", "title": "samples are complete and consistent", "statement": "Every sample from draw_samples assigns each variable a value of its domain and agrees with the given evidence, and each step picks the state whose cumulative posterior interval contains the random number.", "quantifier": "every network, evidence of positive probability, every sequence of random numbers and node choices", "why_tests_cant": "Random draws: tests see a handful of seeds.", "anchors": ["causalnex/ebaybbn/bbn.py: BBN.draw_samples"]}
{"id": "C08", "title": "intervention histories", "statement": "After any sequence of do_intervention, reset_do and query calls, successful or failing, the CPD used for a node is the one set by the last successful do_intervention on that node if no reset_do on it came later, and otherwise the CPD of the network the engine was built from. The original CPDs never change.", "quantifier": "every history of calls of any length", "why_tests_cant": "Histories are unbounded and the entries are shared mutable dictionaries.", "anchors": ["causalnex/inference/inference.py: InferenceEngine._do, do_intervention, reset_do"]}
{"id": "C09", "title": "do_intervention computes the truncated factorisation", "statement": "After do_intervention(node, dist) a query returns the probabilities of the joint in which the CPD of node is replaced by dist (independent of its parents) and every other CPD is unchanged.", "quantifier": "every network and intervention for which the cut network stays connected, every observation set", "why_tests_cant": "Equality of two probability computations over all networks.", "anchors": ["causalnex/inference/inference.py: InferenceEngine.do_intervention, _do, query"]}
{"id": "C10", "title": "failed interventions change nothing", "statement": "do_intervention succeeds exactly when the node is a parent of some node, the probabilities sum to 1 and lie in [0,1], and the given states are exactly the node's states; when it raises, every later query gives what it would have given without the call.", "quantifier": "every engine state and every argument", "why_tests_cant": "Atomicity over all failing inputs.", "anchors": ["causalnex/inference/inference.py: InferenceEngine.do_intervention, _do"]}
{"id": "C11", "title": "queries keep working after an accepted intervention", "statement": "If do_intervention accepts an intervention, a following query with valid observations returns a result.", "quantifier": "every network and every accepted intervention", "why_tests_cant": "A chain of three nodes is enough to break it but the repository's tests do not contain one.", "anchors": ["causalnex/inference/inference.py: InferenceEngine.do_intervention", "causalnex/ebaybbn/bbn.py: build_join_tree"]}
{"id": "C12", "title": "every edge has a valid origin", "statement": "After any sequence of edge additions and removals every edge of a StructureModel carries an origin that is one of unknown, learned, expert; a call with another origin raises and changes nothing.", "quantifier": "every sequence of add_edge, add_edges_from, add_weighted_edges_from, remove and threshold calls with arbitrary arguments", "why_tests_cant": "Invariant over unbounded call sequences.", "anchors": ["causalnex/structure/structuremodel.py: StructureModel.add_edge, add_edges_from, add_weighted_edges_from, _validate_origin"]}
{"id": "C13", "title": "origin of an edge is that of the last call that added it", "statement": "edges_with_origin(o) lists exactly the edges whose last successful addition used origin o.", "quantifier": "every history of additions and removals, every origin", "why_tests_cant": "Histories are unbounded.", "anchors": ["causalnex/structure/structuremodel.py: StructureModel.edges_with_origin, add_edge, add_edges_from, add_weighted_edges_from"]}
{"id": "C14", "title": "re-adding an edge replaces it", "statement": "Adding an edge that already exists replaces the existing edge: afterwards its attributes are exactly those of the last call (the documentation says an existing edge is replaced).", "quantifier": "every graph, every edge, every attribute set", "why_tests_cant": "A test would have to think of leftover attributes.", "anchors": ["causalnex/structure/structuremodel.py: StructureModel.add_edge, add_edges_from"]}
{"id": "C15", "title": "thresholding keeps exactly the strong edges", "statement": "remove_edges_below_threshold(t) keeps an edge if and only if its absolute weight is at least t, keeps all nodes and the attributes of the kept edges, and repeating it changes nothing.", "quantifier": "every weighted graph and threshold", "why_tests_cant": "Exactness over all graphs and boundary values.", "anchors": ["causalnex/structure/structuremodel.py: StructureModel.remove_edges_below_threshold"]}
{"id": "C16", "title": "threshold_till_dag stops at the first DAG", "statement": "threshold_till_dag terminates, leaves an acyclic graph with the same nodes, removes edges in order of absolute weight (no removed edge is heavier than a kept one) and removes none that was not needed: the graph with the last removed edge put back has a cycle. An acyclic graph is left alone.", "quantifier": "every weighted directed graph", "why_tests_cant": "Termination and minimality over all cyclic graphs.", "anchors": ["causalnex/structure/structuremodel.py: StructureModel.threshold_till_dag"]}
{"id": "C17", "title": "subgraph extraction returns components", "statement": "get_target_subgraph(n) returns exactly the nodes weakly connected to n with all edges among them and their attributes; get_largest_subgraph returns such a component with the most edges, or None exactly when there are no edges.", "quantifier": "every graph and node", "why_tests_cant": "Connectivity is a global property of arbitrary graphs.", "anchors": ["causalnex/structure/structuremodel.py: StructureModel.get_largest_subgraph, get_target_subgraph"]}
{"id": "C18", "title": "constructor accepts exactly connected DAGs", "statement": "BayesianNetwork(structure) raises unless the structure is acyclic and has at most one weakly connected component; when it succeeds its nodes and edges are those of the structure.", "quantifier": "every structure", "why_tests_cant": "Acceptance is a predicate on all graphs.", "anchors": ["causalnex/network/network.py: BayesianNetwork.__init__, nodes, edges"]}
{"id": "C19", "title": "node states are a bijection with 0..n-1", "statement": "After node states are set, each node's states are numbered 0..n-1 in sorted order, reading node_states returns what was set, and a failed assignment leaves the previous states in place.", "quantifier": "every assignment of state sets, every previous network state", "why_tests_cant": "Bijection and atomicity for arbitrary sets.", "anchors": ["causalnex/network/network.py: BayesianNetwork.node_states, fit_node_states, _state_to_index"]}
{"id": "C20", "title": "fitted CPDs are conditional distributions labelled by state", "statement": "Each column of each fitted CPD is non-negative and sums to 1 and its entry for state s under parent states u is the (smoothed) relative frequency of s among the rows with parent states u, also for parent combinations that never occur in the data.", "quantifier": "every complete data set over the declared states, both estimation methods, every parent combination", "why_tests_cant": "The table layout and unseen combinations vary with the data.", "anchors": ["causalnex/network/network.py: BayesianNetwork.fit_cpds, cpds"]}
{"id": "C21", "title": "predictions on complete data follow the CPD", "statement": "predict_probability on rows that contain all parents gives each state the CPD entry of that state under the row's parent states, the probabilities of a row sum to 1, and predict gives a state of the node whose probability is maximal.", "quantifier": "every fitted network, node and data frame", "why_tests_cant": "For all tables and rows.", "anchors": ["causalnex/network/network.py: BayesianNetwork.predict, predict_probability, _predict_from_complete_data"]}
{"id": "C22", "title": "predictions are labels of the node", "statement": "predict returns one of the node's states also when parents are missing from the data, and predict_probability names its columns after the node's states.", "quantifier": "every fitted network, node and data frame", "why_tests_cant": "The repository's states are integers 0..n-1 in the tests, which hides the difference between a state and its code.", "anchors": ["causalnex/network/network.py: BayesianNetwork._predict_from_incomplete_data, _predict_probability_from_incomplete_data"]}
{"id": "C23", "title": "ROC pairs each class with its own probability", "statement": "roc_auc compares the indicator of state s with the predicted probability of state s, for each state and row.", "quantifier": "every node name and every set of states", "why_tests_cant": "The pairing is by position after two sorts with different keys; test names do not expose it.", "anchors": ["causalnex/evaluation/evaluation.py: roc_auc, _build_ground_truth"]}
{"id": "C24", "title": "discretisation buckets", "statement": "transform maps x to the number of split points that are at most x: the result is in 0..number of split points, is monotone in x, and x falls in bucket i exactly when the (i-1)-th split point is at most x and x is below the i-th.", "quantifier": "every sorted list of split points and every value", "why_tests_cant": "All reals and boundary values.", "anchors": ["causalnex/discretiser/discretiser.py: Discretiser.transform"]}
{"id": "C25", "title": "fitted split points are ordered and bucket the data", "statement": "For every method fit yields non-decreasing split points between the smallest and the largest value, of the documented number, and for the quantile method on distinct values the bucket sizes are as equal as the quantile definition allows.", "quantifier": "every data set, number of buckets, percentile list and outlier percentile", "why_tests_cant": "For all data, including constant columns.", "anchors": ["causalnex/discretiser/discretiser.py: Discretiser.fit"]}
{"id": "C26", "title": "constructor validation of the discretiser", "statement": "The constructor accepts exactly the documented argument combinations and a fixed discretiser cannot be fitted.", "quantifier": "every argument combination", "why_tests_cant": "Exactness of acceptance.", "anchors": ["causalnex/discretiser/discretiser.py: Discretiser.__init__, fit"]}
{"id": "C27", "title": "lagged rows are aligned", "statement": "For each output row of DynamicDataTransformer for time t, the current columns hold the values at t and column {v}_lag{k} holds the value of v at time t-k in the same realisation; each time point with p predecessors gives exactly one row and no other rows appear.", "quantifier": "every list of realisations with strictly increasing integer indices, every lag p >= 1", "why_tests_cant": "Slicing arithmetic over all lengths and lags, including series shorter than p.", "anchors": ["causalnex/structure/transformers.py: DynamicDataTransformer.fit, transform, _convert_realisations_into_dynotears_format, _concat_lags"]}
{"id": "C28", "title": "no window crosses a gap", "statement": "Rows are never built from time points on both sides of a gap in the index.", "quantifier": "every set of time series, any gap pattern including repeated indices", "why_tests_cant": "All gap patterns.", "anchors": ["causalnex/structure/transformers.py: DynamicDataTransformer._cut_dataframes_on_discontinuity_points, _check_input_from_pandas"]}
{"id": "C29", "title": "banned edges are never learned (NOTEARS)", "statement": "No edge of a structure learned by notears.from_numpy, from_numpy_lasso, from_pandas or from_pandas_lasso is a tabu edge, starts in a tabu parent, ends in a tabu child or is a self loop.", "quantifier": "every data set, tabu set, threshold and every optimiser that respects its bounds", "why_tests_cant": "The bound list is matched to matrix entries by position for all sizes.", "anchors": ["causalnex/structure/notears.py: from_numpy, from_numpy_lasso, from_pandas, from_pandas_lasso, _learn_structure, _learn_structure_lasso"]}
{"id": "C30", "title": "learned graph matches the learned weights (NOTEARS)", "statement": "The returned structure has one node per column, each edge carries the optimiser's weight for that ordered pair and origin learned, an edge is present exactly when its absolute weight survives the threshold, and pandas results are the numpy results with indices replaced by column names.", "quantifier": "every data set, threshold and optimiser result", "why_tests_cant": "For all matrices and names.", "anchors": ["causalnex/structure/notears.py: from_numpy, from_pandas, from_numpy_lasso, from_pandas_lasso"]}
{"id": "C31", "title": "structure learning terminates", "statement": "The dual ascent of NOTEARS calls the optimiser at most max_iter + 20 times.", "quantifier": "every sequence of finite optimiser results", "why_tests_cant": "The loop exit depends on floating point results of an external optimiser.", "anchors": ["causalnex/structure/notears.py: _learn_structure, _learn_structure_lasso", "causalnex/structure/dynotears.py: _learn_dynamic_structure", "causalnex/structure/pytorch/core.py: NotearsMLP.fit, _dual_ascent_step"]}
{"id": "C32", "title": "the acyclicity function characterises DAGs", "statement": "For a weight matrix W the penalty tr(exp(W*W)) - d (and the polynomial tr((I+A/d)^d) - d used by the torch version) is non-negative and is zero exactly when the graph of W has no directed cycle.", "quantifier": "every dimension and every real matrix", "why_tests_cant": "An equivalence over all matrices.", "anchors": ["causalnex/structure/notears.py: _h in _learn_structure", "causalnex/structure/pytorch/core.py: NotearsMLP._h_func", "causalnex/structure/dynotears.py: _h"]}
{"id": "C33", "title": "a small penalty plus a threshold gives a DAG", "statement": "If the penalty of the final weights is at most h_tol and every kept edge has absolute weight above w_threshold with w_threshold^(2L) > (L-1)! * h_tol for all cycle lengths L up to d, the returned structure is acyclic; without a threshold a structure with penalty below h_tol can have a cycle.", "quantifier": "every weight matrix, tolerance and threshold", "why_tests_cant": "Quantifies over all matrices.", "anchors": ["causalnex/structure/notears.py: _learn_structure"]}
{"id": "C34", "title": "banned edges are never learned (DYNOTEARS)", "statement": "No edge learned by from_pandas_dynamic or from_numpy_dynamic is in tabu_edges, starts in a tabu parent node or ends in a tabu child node, there is no self loop among the current variables, and every edge ends in a current (lag 0) variable.", "quantifier": "every number of variables and lags, every tabu set, every optimiser that respects its bounds", "why_tests_cant": "The parameter vector interleaves positive and negative parts per lag; matching positions is an index identity for all sizes.", "anchors": ["causalnex/structure/dynotears.py: from_numpy_dynamic, from_pandas_dynamic, _reshape_wa, _matrices_to_structure_model"]}
{"id": "C35", "title": "lagged names are faithful (DYNOTEARS)", "statement": "An edge {u}_lag{k} -> {v}_lag0 in the result of from_pandas_dynamic carries the estimated effect of column u at lag k on column v, and different (variable, lag) pairs have different names.", "quantifier": "all column names, sizes and lags", "why_tests_cant": "All names and sizes.", "anchors": ["causalnex/structure/dynotears.py: _format_name_from_pandas, from_pandas_dynamic, _matrices_to_structure_model"]}
{"id": "C36", "title": "banned edges are never learned (torch NOTEARS)", "statement": "No edge learned by pytorch from_numpy or from_pandas joins columns (or expanded category columns) whose original pair is banned, including all category columns of a banned categorical variable and pairs within one variable, for linear and hidden-layer models.", "quantifier": "every distribution schema in any order, every tabu set, every hidden layer size, every optimiser that respects its bounds", "why_tests_cant": "Expansion of tabu pairs happens sequentially per variable; closure for all schemas is an induction.", "anchors": ["causalnex/structure/pytorch/notears.py: from_numpy", "causalnex/structure/pytorch/dist_type/_base.py: DistTypeBase.update_tabu_edges, update_tabu_nodes", "causalnex/structure/pytorch/dist_type/categorical.py: DistTypeCategorical.preprocess_X", "causalnex/structure/pytorch/core.py: NotearsMLP"]}
{"id": "C37", "title": "a predicted column depends only on its allowed inputs", "statement": "If the first-layer weights from input i to output j are zero, the network's output for column j does not depend on input column i.", "quantifier": "every depth, width, weight setting and input", "why_tests_cant": "For all weights and inputs.", "anchors": ["causalnex/structure/pytorch/core.py: NotearsMLP.forward", "causalnex/structure/pytorch/nonlinear.py: LocallyConnected.forward"]}
{"id": "C38", "title": "collapsed graph summarises the expanded graph", "statement": "The collapsed adjacency between two original variables is the sum over all pairs of their expanded columns, so the collapsed graph has an edge exactly when the returned expanded graph has one between their columns.", "quantifier": "every schema with any number of categorical variables, every adjacency matrix", "why_tests_cant": "Sequential row and column additions for any number of groups.", "anchors": ["causalnex/structure/pytorch/dist_type/categorical.py: DistTypeCategorical.collapse_adj, modify_h, _add_categorical_to_adj", "causalnex/structure/pytorch/notears.py: from_numpy"]}
{"id": "C39", "title": "expanded node names do not clash", "statement": "Different columns of the expanded data get different node names in the learned graph.", "quantifier": "every set of column names and schema", "why_tests_cant": "Needs unusual names.", "anchors": ["causalnex/structure/pytorch/dist_type/categorical.py: DistTypeCategorical.make_node_name, update_idx_col", "causalnex/structure/pytorch/notears.py: from_pandas"]}
{"id": "C40", "title": "class probabilities of ordinal targets", "statement": "The probabilities an ordinal output returns are non-negative and sum to 1 for each row.", "quantifier": "every network output and every training distribution of at least two categories", "why_tests_cant": "All real outputs.", "anchors": ["causalnex/structure/pytorch/dist_type/ordinal.py: DistTypeOrdinal._get_probs, preprocess_X, inverse_link_function"]}
{"id": "C41", "title": "a dependent target has no children", "statement": "A DAGRegressor or DAGClassifier with dependent_target=True never contains an edge that starts in the target or in one of the target's class columns.", "quantifier": "every data set, schema and tabu settings of the user", "why_tests_cant": "The target joins the user's tabu parents and is expanded per class.", "anchors": ["causalnex/structure/pytorch/sklearn/_base.py: DAGBase.fit"]}
{"id": "C42", "title": "refitting forgets the previous fit", "statement": "A classifier that is fitted a second time treats the target as a freshly constructed classifier would.", "quantifier": "every pair of data sets", "why_tests_cant": "Needs two fits with a different number of classes.", "anchors": ["causalnex/structure/pytorch/sklearn/clf.py: DAGClassifier.fit"]}
{"id": "C43", "title": "coefficients are positional", "statement": "feature_importances_ and coef_ have one entry per input feature, in feature order, equal to the weight of the edge from the feature to the target (0 when absent).", "quantifier": "every fitted model and schema", "why_tests_cant": "Shapes change with expanded features.", "anchors": ["causalnex/structure/pytorch/sklearn/_base.py: DAGBase.get_edges_to_node", "causalnex/structure/pytorch/sklearn/clf.py: feature_importances_, coef_"]}
{"id": "C44", "title": "generated structures are weighted DAGs", "statement": "generate_structure returns a directed acyclic graph on exactly num_nodes nodes without self loops whose weights have absolute value between w_min and w_max, whatever the random draws.", "quantifier": "every graph type, size, degree and every random draw", "why_tests_cant": "All draws.", "anchors": ["causalnex/structure/data_generators/core.py: generate_structure"]}
{"id": "C45", "title": "generated data follow the structural equations", "statement": "sem_generator's output does not depend on uninitialised memory: each column is a function of its parents' columns, the weights and the noise, and satisfies its structural equation; binary columns are 0/1 and categorical columns one-hot.", "quantifier": "every DAG in every topological order, every schema, every noise draw", "why_tests_cant": "The output array starts uninitialised; independence is a statement about all memory contents.", "anchors": ["causalnex/structure/data_generators/core.py: sem_generator, _create_weight_matrix, _init_sem_data_gen, nonlinear_sem_generator"]}
{"id": "C46", "title": "dynamic structures only point to the present", "statement": "generate_structure_dynamic returns edges that all end in a lag 0 node, intra-slice edges form a DAG and inter-slice edges start in a node with lag between 1 and p.", "quantifier": "every size, lag, graph type and random draw", "why_tests_cant": "All draws.", "anchors": ["causalnex/structure/data_generators/wrappers.py: generate_structure_dynamic, _generate_inter_structure"]}
{"id": "C47", "title": "dynamic data columns carry their label", "statement": "In the frame returned by generate_dataframe_dynamic the column {v}_lag{k} of row t holds the value that column {v}_lag0 had k rows earlier.", "quantifier": "every dynamic structure, number of variables and lags", "why_tests_cant": "Only visible with two or more lags and two or more variables.", "anchors": ["causalnex/structure/data_generators/wrappers.py: generate_dataframe_dynamic"]}
{"id": "C48", "title": "feature indices partition the features", "statement": "VariableFeatureMapper gives every variable of the schema at least one feature index, the index lists of different variables are disjoint, together they are 0..n_features-1, and names and indices are inverse to each other.", "quantifier": "every schema", "why_tests_cant": "All schemas and names.", "anchors": ["causalnex/structure/categorical_variable_mapper.py: VariableFeatureMapper"]}
{"id": "C49", "title": "schema validation", "statement": "validate_schema accepts exactly the schemas that assign each node one of the supported types with a positive number of categories (no leading zeros) for categorical ones, gives missing nodes the default type, and every accepted schema can be turned into a VariableFeatureMapper.", "quantifier": "every schema dictionary and node list", "why_tests_cant": "All strings.", "anchors": ["causalnex/structure/categorical_variable_mapper.py: validate_schema, VariableFeatureMapper.__init__"]}
{"id": "C50", "title": "count sampling is the inverse Poisson CDF", "statement": "_sample_poisson terminates and returns for each row the smallest count k (up to max_count) for which the uniform draw is below the Poisson probability of at most k events.", "quantifier": "every intensity, every uniform draw, every max_count", "why_tests_cant": "Loop over array masks that are updated one step late.", "anchors": ["causalnex/structure/data_generators/core.py: _sample_poisson"]}
{"id": "C51", "title": "gradient strings have exact ends", "statement": "color_gradient_string(from, to, steps) has steps+1 colors, starts with from and ends with to, and every channel stays between its end values.", "quantifier": "every pair of colors and every step count", "why_tests_cant": "All colors and step counts.", "anchors": ["causalnex/plots/plots.py: color_gradient_string"]}
{"id": "C52", "title": "plot attributes follow the documented precedence", "statement": "For each node and edge a specific attribute overrides an all-nodes/edges attribute, which overrides the default, and the plotted structure is never modified.", "quantifier": "every structure and attribute dictionaries", "why_tests_cant": "All combinations.", "anchors": ["causalnex/plots/plots.py: _add_attributes, plot_structure"]}
{"id": "C53", "title": "documented node names get a working engine", "statement": "A network whose node names match the documented pattern of digits, letters and underscores gets an InferenceEngine whose queries return results.", "quantifier": "every connected acyclic network and every assignment of matching names", "why_tests_cant": "Names become parameters of generated functions; only some of them are usable.", "anchors": ["causalnex/inference/inference.py: InferenceEngine.__init__, _create_node_function, query"]}
{"id": "C54", "title": "answers of a learned network are those of the data", "statement": "For a structure that is a connected DAG with at least one edge and complete data, fitting a BayesianNetwork and querying an InferenceEngine built from it returns for every variable and state the conditional probability under the product of the (smoothed) relative frequencies of each node given its parents in the data.", "quantifier": "every structure, data set, estimation method, iteration order and set of observations", "why_tests_cant": "End-to-end over structure, counting, table layout and junction tree.", "anchors": ["causalnex/network/network.py: BayesianNetwork", "causalnex/inference/inference.py: InferenceEngine"]}
{"id": "C55", "title": "classification reports name each class correctly", "statement": "classification_report gives sklearn's report the true states, the states predicted by the network, the sorted list of all states as labels and, in the same order, the names {node}_{state}, all different.", "quantifier": "every fitted network, node and test data whose parents' values are declared", "why_tests_cant": "All state sets, including integer states whose string order differs.", "anchors": ["causalnex/evaluation/evaluation.py: classification_report"]}
{"id": "C56", "title": "which data torch structure learning accepts", "statement": "pytorch from_numpy returns a structure exactly for non-empty data of finite numbers whose schema gives each column one of the five types, whose Poisson columns are not negative, whose ordinal columns have two different values and whose hidden layers are not empty.", "quantifier": "every data set, schema, hidden layer setting and optimiser with finite penalties", "why_tests_cant": "All combinations of types and values.", "anchors": ["causalnex/structure/pytorch/notears.py: from_numpy", "causalnex/structure/pytorch/core.py: NotearsMLP.fit"]}
{"id": "C57", "title": "the bias of a node is its own", "statement": "The attribute bias of a node of a structure learned by pytorch from_numpy is what the fitted model predicts for that node when all inputs are zero (before any link function); it changes only if the node's own model changes.", "quantifier": "every data set, schema, hidden layer setting", "why_tests_cant": "Only visible with hidden layers.", "anchors": ["causalnex/structure/pytorch/notears.py: from_numpy", "causalnex/structure/pytorch/core.py: NotearsMLP.bias"]}
{"id": "C58", "title": "features and targets are paired by row", "statement": "fit of a DAGRegressor or DAGClassifier pairs the n-th row of the features with the n-th target, like every scikit-learn estimator, whatever the indices of the data frame and the series.", "quantifier": "every data frame, series or array with equally many rows", "why_tests_cant": "Only visible with particular combinations of indices.", "anchors": ["causalnex/structure/pytorch/sklearn/_base.py: DAGBase", "causalnex/structure/pytorch/sklearn/reg.py: DAGRegressor", "causalnex/structure/pytorch/sklearn/clf.py: DAGClassifier"]}
{"id": "C59", "title": "classifier predictions", "statement": "After a successful fit of a DAGClassifier predict_proba returns for each row of new data one probability for each class, none negative and summing to one, and predict returns the class whose probability is largest.", "quantifier": "every configuration, target type, data set and new data", "why_tests_cant": "All learned parameters and inputs.", "anchors": ["causalnex/structure/pytorch/sklearn/_base.py: DAGBase", "causalnex/structure/pytorch/sklearn/reg.py: DAGRegressor", "causalnex/structure/pytorch/sklearn/clf.py: DAGClassifier"]}
{"id": "C60", "title": "linear estimators predict with their coefficients", "statement": "For an estimator without hidden layers, predict (or the decision values of predict_proba) is the link function of intercept_ plus the sum of coef_ times the features.", "quantifier": "every configuration without hidden layers, every data set and new data", "why_tests_cant": "Coefficients are read from the structure but predictions are made by the network.", "anchors": ["causalnex/structure/pytorch/sklearn/_base.py: DAGBase", "causalnex/structure/pytorch/sklearn/reg.py: DAGRegressor", "causalnex/structure/pytorch/sklearn/clf.py: DAGClassifier"]}
{"id": "C61", "title": "predicting before fitting is reported", "statement": "An estimator that was not fitted raises NotFittedError from predict, predict_proba, coef_ and feature_importances_, and the type of its target is always one that the estimator supports.", "quantifier": "every configuration and every sequence of fits", "why_tests_cant": "All configurations and histories.", "anchors": ["causalnex/structure/pytorch/sklearn/_base.py: DAGBase", "causalnex/structure/pytorch/sklearn/reg.py: DAGRegressor", "causalnex/structure/pytorch/sklearn/clf.py: DAGClassifier"]}
{"id": "C62", "title": "integer inputs predict like equal floats", "statement": "predict gives the same answer for an array of integers and for the array of floats with the same values.", "quantifier": "every fitted estimator and new data", "why_tests_cant": "Only visible with standardize and integer arrays.", "anchors": ["causalnex/structure/pytorch/sklearn/_base.py: DAGBase", "causalnex/structure/pytorch/sklearn/reg.py: DAGRegressor", "causalnex/structure/pytorch/sklearn/clf.py: DAGClassifier"]}
{"id": "C63", "title": "copies have the same parameters", "statement": "sklearn.base.clone(estimator) is an unfitted estimator that behaves like the original did before its first fit.", "quantifier": "every configuration and every sequence of fits", "why_tests_cant": "All configurations and histories.", "anchors": ["causalnex/structure/pytorch/sklearn/_base.py: DAGBase", "causalnex/structure/pytorch/sklearn/reg.py: DAGRegressor", "causalnex/structure/pytorch/sklearn/clf.py: DAGClassifier"]}
{"id": "C64", "title": "estimators respect bans and enforce_dag", "statement": "The structure of a fitted estimator has no edge that tabu_edges, tabu_parent_nodes or tabu_child_nodes forbid (for any of the columns of a categorical variable), and with enforce_dag it is acyclic.", "quantifier": "every data set, configuration and optimiser that respects its bounds", "why_tests_cant": "All optimiser results.", "anchors": ["causalnex/structure/pytorch/sklearn/_base.py: DAGBase", "causalnex/structure/pytorch/sklearn/reg.py: DAGRegressor", "causalnex/structure/pytorch/sklearn/clf.py: DAGClassifier"]}
{"id": "C65", "title": "a failed fit changes nothing", "statement": "If fit raises, the estimator predicts and reports coefficients as before.", "quantifier": "every estimator, history and data set for which fit raises", "why_tests_cant": "All histories and all places at which a fit can fail.", "anchors": ["causalnex/structure/pytorch/sklearn/_base.py: DAGBase", "causalnex/structure/pytorch/sklearn/reg.py: DAGRegressor", "causalnex/structure/pytorch/sklearn/clf.py: DAGClassifier"]}
{"id": "C66", "title": "regressor predictions", "statement": "After a successful fit of a DAGRegressor predict returns one number for each row of new data; the numbers are positive if the target is Poisson.", "quantifier": "every configuration, data set and new data", "why_tests_cant": "All learned parameters and inputs.", "anchors": ["causalnex/structure/pytorch/sklearn/_base.py: DAGBase", "causalnex/structure/pytorch/sklearn/reg.py: DAGRegressor", "causalnex/structure/pytorch/sklearn/clf.py: DAGClassifier"]}
{"id": "C67", "title": "binary columns contain both classes", "statement": "The labels of a binary variable are ordered like the latent values they are made from, equal the sign of the latent value unless that is heavily imbalanced, and both labels occur in at least about 5% of the rows.", "quantifier": "every array of latent values with two or more rows", "why_tests_cant": "All latent values, including ties.", "anchors": ["causalnex/structure/data_generators/core.py: _sample_binary_from_latent"]}
{"id": "C68", "title": "distribution names are validated", "statement": "sem_generator raises ValueError if an entry of distributions is not one of the documented names for that entry.", "quantifier": "every dictionary of distributions, graph and schema", "why_tests_cant": "All combinations of entries and types.", "anchors": ["causalnex/structure/data_generators/core.py: sem_generator, _add_continuous_noise, _sample_binary_from_latent, _sample_categories_from_latent, _sample_count_from_latent, _create_weight_matrix"]}
{"id": "C69", "title": "nonlinear data pair each value with its row", "statement": "nonlinear_sem_generator does not depend on uninitialised memory; the latent mean of a variable is the sampled function of its parents' values in the same row, also if the rows are sorted and sampled in batches, scaled to variance one.", "quantifier": "every DAG, schema, number of samples and sampled functions", "why_tests_cant": "Batches only occur for more than 100 samples; memory contents.", "anchors": ["causalnex/structure/data_generators/core.py: nonlinear_sem_generator, _gp_index, _scale_y"]}
{"id": "C70", "title": "plain data have one column per node in order", "statement": "generate_continuous_data and generate_binary_data return an array whose j-th column is the variable of the j-th node of the structure and follows its structural equation.", "quantifier": "every DAG whose node names differ as text, every draw", "why_tests_cant": "Columns are reordered internally by variable type.", "anchors": ["causalnex/structure/data_generators/wrappers.py: generate_continuous_data, generate_binary_data"]}
{"id": "C71", "title": "dynamic data follow the structure", "statement": "generate_dataframe_dynamic returns n_samples rows with one column per node; in every row the value of each current variable is its drift, plus the weighted sum of the values of its parents in that row (current and lagged), plus its noise.", "quantifier": "every structure over {v}_lag{k} nodes, every drift, noise and number of rows", "why_tests_cant": "All structures and draws.", "anchors": ["causalnex/structure/data_generators/wrappers.py: generate_dataframe_dynamic"]}
{"id": "C72", "title": "the stationary generator returns a structure and data of it", "statement": "gen_stationary_dyn_net_and_df ends and returns a structure with edges in the present and from the past, and n_samples rows of data that follow that structure, with all values below 1000; constant data are returned only if no trial gives such data.", "quantifier": "every configuration, sequence of draws and number of trials", "why_tests_cant": "Loops until random draws succeed.", "anchors": ["causalnex/structure/data_generators/wrappers.py: gen_stationary_dyn_net_and_df"]}
{"id": "C73", "title": "the optimiser is given the right objective and its gradient", "statement": "In from_numpy, from_pandas (with and without lasso) and from_pandas_dynamic the objective handed to scipy is half the mean squared error of the linear model, plus rho/2 h^2 + alpha h for the acyclicity penalty h, plus the L1 terms; the jac handed over with it is its gradient at every point.", "quantifier": "all data, weights, numbers of variables and lags, penalty parameters", "why_tests_cant": "A wrong sign, factor, transpose or block order in a gradient still lets the optimiser return plausible weights; checking needs derivatives of the trace of a matrix exponential at every point.", "anchors": ["causalnex/structure/notears.py: _learn_structure, _learn_structure_lasso", "causalnex/structure/dynotears.py: _learn_dynamic_structure, _reshape_wa"]}
{"id": "C74", "title": "the lasso parameters penalise the absolute weights", "statement": "For lasso_beta (NOTEARS) and lambda_w, lambda_a (DYNOTEARS): minimising over the non-negative vectors handed to the optimiser is minimising the score plus the parameter times the sum of absolute weights of the returned matrices; no vector scores below that, and every matrix has a vector that attains it.", "quantifier": "all data, weights, numbers of variables and lags, non-negative parameters", "why_tests_cant": "An equivalence of two minimisation problems over all weights.", "anchors": ["causalnex/structure/notears.py: _learn_structure_lasso", "causalnex/structure/dynotears.py: _learn_dynamic_structure, _reshape_wa"]}
{"id": "C75", "title": "the torch learner maximises the likelihood of its own predictions", "statement": "In from_pandas and from_numpy of structure.pytorch and in the estimators, the data term of the objective is the sum over the variables of the mean over the rows of minus the logarithm of the probability (or density, with variance one) that the reported prediction gives to the observed value, up to a constant that no parameter changes; for continuous, binary, categorical, ordinal and Poisson variables.", "quantifier": "every data set whose columns suit their type (0 and 1, counts, at least two ordered categories) and schema, every parameter vector", "why_tests_cant": "Each loss is written in another form than the reported probability; agreement at every score is an identity over the reals.", "anchors": ["causalnex/structure/pytorch/core.py: _func, _l1_reg, _l2_reg", "causalnex/structure/pytorch/dist_type: loss, inverse_link_function of every type"]}
{"id": "C76", "title": "the torch objective is bounded below", "statement": "For non-negative lasso_beta, ridge_beta and penalty parameters the objective handed to the optimiser has a lower bound over all parameters, so that fitting is a meaningful problem, for every data set that is accepted.", "quantifier": "every data set, schema and network shape", "why_tests_cant": "A statement about all parameter vectors.", "anchors": ["causalnex/structure/pytorch/core.py: _func, _l1_reg, _l2_reg", "causalnex/structure/pytorch/dist_type: loss, inverse_link_function of every type"]}
{"id": "C77", "title": "predictions of a fitted network are right on average", "statement": "At parameters where no change of the final bias of an output lowers the objective (with use_bias), the mean over the training rows of the reported prediction is the mean of the observed values: the mean, the share of ones, the mean count and the share of each category; regularisation does not bias it.", "quantifier": "every data set and schema, every variable that is not ordinal, every network shape and regularisation", "why_tests_cant": "Holds exactly only at an exact minimum.", "anchors": ["causalnex/structure/pytorch/core.py: _func, _l1_reg, _l2_reg", "causalnex/structure/pytorch/dist_type: loss, inverse_link_function of every type"]}
{"id": "C78", "title": "interventions only change descendants", "statement": "If do_intervention(v, ...) succeeds, a query with observations of non-descendants of v gives every non-descendant of v the same distribution before and after.", "quantifier": "every network, every history of interventions and resets, every v, argument and set of observations, for queries that return", "why_tests_cant": "All networks, histories and observations.", "anchors": ["causalnex/inference/inference.py: InferenceEngine.query, do_intervention", "causalnex/ebaybbn: query of the join tree"]}
{"id": "C79", "title": "a variable given its parents follows its CPD", "statement": "If all parents of v and otherwise only non-descendants of v are observed, with positive probability, the queried distribution of v is the column of its CPD for the observed parent states.", "quantifier": "every network, variable and set of such observations", "why_tests_cant": "All structures and sets of non-descendants.", "anchors": ["causalnex/inference/inference.py: InferenceEngine.query, do_intervention", "causalnex/ebaybbn: query of the join tree"]}
{"id": "C80", "title": "doing is seeing once the parents are observed", "statement": "If all parents of v are observed (in particular if v has none), the query after do_intervention(v, x) equals the query before it with v observed as x, for every variable, if that observation has positive probability.", "quantifier": "every network, variable, state and set of observations, for queries that return", "why_tests_cant": "All networks and observations.", "anchors": ["causalnex/inference/inference.py: InferenceEngine.query, do_intervention", "causalnex/ebaybbn: query of the join tree"]}
{"id": "C81", "title": "the effect of an intervention is the parent-adjusted one", "statement": "After do_intervention(v, d) the queried distribution of every variable is the sum over states x and parent settings of d(x) P(parents) P(u | v = x, parents) of the original network, if every x with d(x) > 0 is possible for every possible parent setting.", "quantifier": "every network, variable, distribution and queried variable, for queries that return", "why_tests_cant": "An identity between two different sums over all worlds.", "anchors": ["causalnex/inference/inference.py: InferenceEngine.query, do_intervention", "causalnex/ebaybbn: query of the join tree"]}
{"id": "C82", "title": "separated evidence is irrelevant", "statement": "If no chain of parent-child pairs and pairs of parents of one child leads from u to the new evidence outside the observed variables, among u, the evidence and their ancestors (d-separation), then adding the evidence to a query does not change the answer for u.", "quantifier": "every network, variable, observations and further evidence of positive probability", "why_tests_cant": "A theorem about all graphs.", "anchors": ["causalnex/inference/inference.py: InferenceEngine.query, do_intervention", "causalnex/ebaybbn: query of the join tree"]}
{"id": "C83", "title": "maximum likelihood tables maximise the likelihood", "statement": "After fit_cpds with MaximumLikelihoodEstimator no other CPDs for the same structure give the training rows (those without unknown values) a larger probability, and any CPDs that give them the same probability agree with the fitted ones on every combination of parent states that occurs.", "quantifier": "every network, data frame and every alternative set of CPDs", "why_tests_cant": "A maximum over all tables of rational numbers.", "anchors": ["causalnex/network/network.py: fit_node_states, fit_cpds, predict, predict_probability"]}
{"id": "C84", "title": "fitting does not depend on the order of the data", "statement": "fit_node_states and fit_cpds give the same network for data with the rows in another order; fit_cpds also with the columns in another order or with further columns that are no nodes; with MaximumLikelihoodEstimator also if the whole data set is repeated.", "quantifier": "every network, data frame, permutation, estimator and prior", "why_tests_cant": "All permutations and repetitions.", "anchors": ["causalnex/network/network.py: fit_node_states, fit_cpds, predict, predict_probability"]}
{"id": "C85", "title": "prediction goes row by row", "statement": "predict and predict_probability for two data frames one below the other give the two answers one below the other, and raise exactly if one of the two raises; predict for permuted rows pairs every row with the same prediction.", "quantifier": "every network, data frames with the same columns, node, and every answer of the underlying pgmpy model for single rows", "why_tests_cant": "All data frames and splits.", "anchors": ["causalnex/network/network.py: fit_node_states, fit_cpds, predict, predict_probability"]}
{"id": "C86", "title": "samples have the right joint distribution", "statement": "draw_samples(query, n): for every order in which the variables are drawn, the random numbers that give a particular completion of the observations form a box whose volume is its conditional probability given the observations; this depends on the draws of that sample only, so that the samples are independent.", "quantifier": "every network, observations of positive probability, number of samples, choice of variables and iteration order of sets; random numbers in (0, 1]", "why_tests_cant": "A statement about all random numbers; frequencies over a few runs only approximate it.", "anchors": ["causalnex/ebaybbn/bbn.py: draw_samples, query"]}
{"id": "C87", "title": "the acyclicity penalty pushes on cycles only", "statement": "The derivative of the acyclicity penalty along a weight is non-zero exactly if its edge lies on a cycle, and has the sign of the weight; all derivatives vanish exactly at acyclic weights, where the gradient handed to the optimiser is that of least squares whatever the multipliers.", "quantifier": "every weight matrix, data and multipliers", "why_tests_cant": "A statement about a derivative of an infinite series at every point.", "anchors": ["causalnex/structure/notears.py: _h, _func, _grad"]}
{"id": "C88", "title": "the order of the columns does not matter to the learners", "statement": "With the columns of the data (and lagged data) in another order, the objectives of from_numpy, from_pandas (with and without lasso) and from_pandas_dynamic take the same value at the weights in that order, and minima under the given bounds (tabu edges, zeros, signs) correspond.", "quantifier": "every permutation, data, bounds and parameters", "why_tests_cant": "All permutations and weights.", "anchors": ["causalnex/structure/notears.py: _learn_structure, _learn_structure_lasso", "causalnex/structure/dynotears.py: _learn_dynamic_structure"]}
{"id": "C89", "title": "the units of measurement do not decide the structure", "statement": "Measuring a column in another unit does not change which edges the best acyclic weights of from_numpy have.", "quantifier": "all data", "why_tests_cant": "Depends on the exact minimum over all acyclic weights.", "anchors": ["causalnex/structure/notears.py: _learn_structure"]}
{"id": "C90", "title": "d-separated evidence is irrelevant", "statement": "If the observed variables block every trail between u and each new piece of evidence (a trail passes an inner variable with both arrows into it exactly if it or a descendant is observed, any other exactly if it is not), then adding the evidence to a query does not change the answer for u.", "quantifier": "every network, variable, observations and further evidence of positive probability", "why_tests_cant": "A theorem about all graphs and all trails in them.", "anchors": ["causalnex/inference/inference.py: InferenceEngine.query, do_intervention", "causalnex/ebaybbn: query of the join tree"]}
{"id": "C91", "title": "interventions on separated variables are irrelevant", "statement": "If the observed variables block every trail between v and u, do_intervention(v, ...) does not change the answer for u to a query with these observations, if they have positive probability before and after.", "quantifier": "every network, variables, argument and observations not of u or v, for queries that return", "why_tests_cant": "A theorem about all graphs.", "anchors": ["causalnex/inference/inference.py: InferenceEngine.query, do_intervention", "causalnex/ebaybbn: query of the join tree"]}
{"id": "C92", "title": "doing is seeing when the back doors are blocked", "statement": "If the observations block every trail between v and u with an arrow into v, the answer for u to a query after do_intervention(v, x) equals the answer before it with v observed as x as well; and no distribution given to v changes the answer once v is observed.", "quantifier": "every network, variables, state, distribution and observations, for queries that return and observations of positive probability", "why_tests_cant": "A theorem about all graphs.", "anchors": ["causalnex/inference/inference.py: InferenceEngine.query, do_intervention", "causalnex/ebaybbn: query of the join tree"]}
{"id": "C93", "title": "the effect of an intervention by back-door adjustment", "statement": "If Z contains no descendant of v and blocks every trail between v and u with an arrow into v, then the answer for u after do_intervention(v, d) is the sum over states x and settings z of Z of d(x) P(z) P(u | v = x, z) of the original network, if every x with d(x) > 0 is possible for every possible z.", "quantifier": "every network, variables, distribution and set Z, for queries that return", "why_tests_cant": "An identity between two different sums over all worlds.", "anchors": ["causalnex/inference/inference.py: InferenceEngine.query, do_intervention", "causalnex/ebaybbn: query of the join tree"]}
{"id": "C94", "title": "equivalent structures give equivalent networks", "statement": "Two structures with the same nodes, the same links and the same v-structures (x -> z <- y with x and y not linked), fitted to the same complete data with MaximumLikelihoodEstimator or with BayesianEstimator and the BDeu prior, answer every query alike; with the K2 prior, or after an intervention, they need not.", "quantifier": "every pair of such connected acyclic structures, every complete data frame, equivalent sample size and set of observations", "why_tests_cant": "All pairs of equivalent graphs and all data; a test sees a few.", "anchors": ["causalnex/network/network.py: BayesianNetwork, fit_node_states, fit_cpds", "causalnex/inference/inference.py: InferenceEngine.query"]}
{"id": "C95", "title": "a fitted network reproduces the frequencies of the data", "statement": "After fitting a connected acyclic structure to complete data with MaximumLikelihoodEstimator, a query for v given observations of nodes that are linked with v and with each other returns the relative frequencies of the states of v among the matching rows (without observations: the frequencies of the states of v), if the parents of each of these nodes and of all their ancestors are pairwise linked, as in a tree; where parents are not linked it need not.", "quantifier": "every such structure, complete data frame, node and observations that occur in the data", "why_tests_cant": "All structures and data.", "anchors": ["causalnex/network/network.py: BayesianNetwork, fit_node_states, fit_cpds", "causalnex/inference/inference.py: InferenceEngine.query"]}
{"id": "C96", "title": "more edges never fit worse", "statement": "If the edges of one network are among those of another with the same nodes and states, then after fitting both with MaximumLikelihoodEstimator to the same data the second gives the training rows (those without unknown values) at least the same probability.", "quantifier": "every pair of such networks and every data frame", "why_tests_cant": "All structures and data; an inequality between two maxima.", "anchors": ["causalnex/network/network.py: fit_node_states, fit_cpds, predict, predict_probability"]}
{"id": "C97", "title": "the area under the ROC curve is a probability of ranking", "statement": "roc_auc(bn, data, node) returns as area the share of the pairs (a row with the state it has; a row with a state it does not have) in which the first is given the larger probability, ties counting one half; the curve goes from (0, 0) to (1, 1), its points are the false and true positive rates at the probabilities that occur, and the rates at every such probability lie on it. The area is 1 exactly if all pairs are ranked correctly, and not a number for a node with one state.", "quantifier": "every fitted network, node and complete test data whose state names are read back correctly (C23)", "why_tests_cant": "An identity between an area and a count over all pairs, for all data.", "anchors": ["causalnex/evaluation/evaluation.py: roc_auc, classification_report"]}
{"id": "C98", "title": "the classification report counts correctly", "statement": "For every state of the node classification_report gives, under the state's name, precision, recall, F1 and support computed from the rows with that state and those predicted to have it; the macro average is the plain mean over the states; the overall entry (called accuracy if every state occurs or is predicted, micro avg otherwise) and the weighted recall are the share of rows predicted correctly.", "quantifier": "every fitted network, node and complete test data", "why_tests_cant": "All data and predictions, including states that never occur.", "anchors": ["causalnex/evaluation/evaluation.py: roc_auc, classification_report"]}
{"id": "C99", "title": "predicted probabilities are conditional probabilities given the row", "statement": "predict_probability(data, node) gives, for every row, the probability of each state of the node given all the values in the row's other columns: what InferenceEngine(bn).query answers with these values as observations.", "quantifier": "every fitted network, node and data frame of known values whose values have positive probability together, whatever order of variables pgmpy uses", "why_tests_cant": "All networks, subsets of columns and rows; the two computations share no code.", "anchors": ["causalnex/network/network.py: predict, predict_probability", "causalnex/inference/inference.py: InferenceEngine.query"]}
{"id": "C100", "title": "predict returns a most probable state given the row", "statement": "predict(data, node) returns for every row a state of the node that is most probable given all the values in the row's other columns, so that it agrees with the largest of predict_probability.", "quantifier": "every fitted network, node and data frame of known values whose values have positive probability together, whatever order of variables pgmpy uses", "why_tests_cant": "All networks, subsets of columns and rows.", "anchors": ["causalnex/network/network.py: predict, predict_probability", "causalnex/inference/inference.py: InferenceEngine.query"]}
{"id": "C101", "title": "the Bayesian estimator excludes nothing and shrinks towards uniform", "statement": "A network fitted with the BayesianEstimator (K2, or BDeu with a positive equivalent sample size) and queried for any values that occur in the data gives every state a positive probability unless the same variable was observed in another state. Each entry of its CPDs is a weighted mean of the entry that maximum likelihood gives and of the uniform distribution; the weights are the number of rows that show the parents' states and the number of rows the prior is worth.", "quantifier": "every connected acyclic structure, complete data, prior, observations, order of the engine's choices", "why_tests_cant": "All data sets and networks; tests check a few entries.", "anchors": ["causalnex/network/network.py: fit_cpds", "causalnex/inference/inference.py: InferenceEngine.query"]}
{"id": "C102", "title": "the answers of several queries fit together", "statement": "Repeated queries to one engine (also while interventions are in force) are answered by one probability distribution: the order in which observations are listed does not matter; P(a | o) P(b | o, a) = P(b | o) P(a | o, b); averaging the answers after each possible observation of a variable with its present probabilities gives the present answer; observing what was certain changes nothing, what was impossible gives zeros, and anything else then has probability 1.", "quantifier": "every network with distributions as CPDs, every sequence of calls after which queries work, all observations, all orders of the engine's choices", "why_tests_cant": "Relations between the answers of several queries, over all networks and histories.", "anchors": ["causalnex/inference/inference.py: InferenceEngine.query, do_intervention, reset_do", "causalnex/ebaybbn/bbn.py: JoinTree, BBN.query"]}
{"id": "C103", "title": "a fitted network reproduces all frequencies exactly if the data have its independences", "statement": "After fitting a connected acyclic structure to complete data with MaximumLikelihoodEstimator, every query returns the relative frequencies among the rows that match the observations (whenever there are such rows) if in the data every node is independent of the nodes before it given its parents, for one order of the nodes in which parents come first; and only then.", "quantifier": "every such structure, order, complete data frame, node and observations", "why_tests_cant": "An equivalence between infinitely many queries and a property of the data.", "anchors": ["causalnex/network/network.py: BayesianNetwork, fit_node_states, fit_cpds", "causalnex/inference/inference.py: InferenceEngine.query"]}
{"id": "C104", "title": "discretisation depends on neither units, nor order, nor earlier fits", "statement": "Fitting a Discretiser and discretising new data gives the same buckets (or the same error) if both are measured in another unit (multiplied by a factor above zero and shifted), if the training data are listed in another order, and whatever the same object was fitted to before.", "quantifier": "every method and parameters, all data, factors, offsets, permutations and sequences of earlier fits", "why_tests_cant": "All data and units; relations between several runs.", "anchors": ["causalnex/discretiser/discretiser.py: Discretiser.fit, transform"]}
{"id": "C105", "title": "a threshold while learning is a threshold afterwards", "statement": "Learning a structure with w_threshold=t (NOTEARS, NOTEARS with lasso, DYNOTEARS) gives the same nodes, edges, weights and origins as learning it with a smaller threshold (such as 0) from the same data and then calling remove_edges_below_threshold(t); in particular a larger threshold only removes edges.", "quantifier": "every data set, tabu set, pair of thresholds and optimiser results", "why_tests_cant": "A relation between two runs for all data and weights, including weights equal to the threshold.", "anchors": ["causalnex/structure/notears.py: from_numpy, from_pandas, from_numpy_lasso, from_pandas_lasso", "causalnex/structure/dynotears.py: from_numpy_dynamic, from_pandas_dynamic", "causalnex/structure/structuremodel.py: remove_edges_below_threshold"]}
{"id": "C106", "title": "copies and conversions of a structure keep what they should", "statement": "sm.copy() and sm.to_directed() have the nodes, edges and all attributes (origins included) of sm; sm.reverse() has every edge turned round with its attributes, and reversing twice gives sm; StructureModel(sm, origin=o) differs only in that every origin is o; sm.to_undirected() links the nodes that an edge of sm links, with the attributes of that edge; of two opposite edges, the attributes of the one from the node listed later win.", "quantifier": "every structure built by any sequence of calls", "why_tests_cant": "All structures; the methods are inherited and fill the new object through overridden ones.", "anchors": ["causalnex/structure/structuremodel.py: StructureModel.__init__, to_directed_class, to_undirected_class, add_edges_from"]}
{"id": "C107", "title": "the effect of an intervention by front-door adjustment", "statement": "If m meets the front-door criterion for v and u (every directed path from v to u goes through m, no back door from v to m is open, and v blocks the back doors from m to u), then after do_intervention(v, x) the queried probability of u = s is the sum over y of P(m = y | v = x) times the sum over x' of P(v = x') P(u = s | m = y, v = x'), all of these read off queries of the engine without the intervention; the common causes of v and u are never asked about.", "quantifier": "every fitted network, every v, m, u meeting the criterion with v = x and the needed combinations possible, every visiting order", "why_tests_cant": "Needs d-separation in two intervened graphs at once, for all graphs and tables.", "anchors": ["causalnex/inference/inference.py: InferenceEngine.query, do_intervention"]}
{"id": "C108", "title": "a network can be refitted, and a refused fit changes nothing", "statement": "After any sequence of calls on a BayesianNetwork, successful or not, nodes and edges are those of the structure, fit_node_states_and_cpds(data) gives exactly the network (or raises exactly the error) that it would have given right after construction, and fit_cpds forgets the CPDs fitted before; a call that sets or fits node states or CPDs and raises leaves the network as it was.", "quantifier": "every structure, every sequence of calls, all data and options", "why_tests_cant": "Histories are unbounded; a stale entry shows only for particular sequences of calls and data.", "anchors": ["causalnex/network/network.py: BayesianNetwork.node_states.setter, fit_node_states, fit_cpds, fit_node_states_and_cpds, nodes, edges, cpds"]}
{"id": "C109", "title": "nothing answers before it was fitted", "statement": "A new BayesianNetwork has no CPDs, and node_states, fit_cpds, predict, predict_probability, roc_auc, classification_report and InferenceEngine(bn) raise; as long as there are no CPDs InferenceEngine raises ValueError and predictions from the parents raise KeyError; a node name that is not made of letters, digits and underscores is refused by InferenceEngine. A Discretiser without given split points raises ValueError from transform until a fit succeeds. coef_ and intercept_ of an estimator that was not fitted raise AttributeError.", "quantifier": "every structure, data frame, node, option, sequence of failed fits, configuration", "why_tests_cant": "All data and histories of failing calls.", "anchors": ["causalnex/network/network.py: node_states, cpds, fit_cpds, predict, predict_probability", "causalnex/inference/inference.py: InferenceEngine.__init__", "causalnex/discretiser/discretiser.py: transform", "causalnex/structure/pytorch/sklearn/clf.py, reg.py, _base.py: coef_, intercept_"]}
{"id": "C110", "title": "which data and bans NOTEARS and DYNOTEARS accept", "statement": "from_numpy and from_numpy_lasso return a structure exactly for data with rows and columns and finite values, otherwise they raise ValueError; from_pandas and from_pandas_lasso need moreover numeric columns (else ValueError) and that every name in tabu_edges, tabu_parent_nodes, tabu_child_nodes is a column (else KeyError). from_numpy_dynamic needs finite data, as many rows in Xlags as in X and a multiple of its columns. from_pandas_dynamic needs series with the same numeric columns and increasing integer times, p at least 1, known banned names and some time with p predecessors.", "quantifier": "all data, bans, thresholds, optimisers that respect their bounds and penalties that do not overflow", "why_tests_cant": "All data and bans; exact characterisation of success.", "anchors": ["causalnex/structure/notears.py: from_numpy, from_numpy_lasso, from_pandas, from_pandas_lasso", "causalnex/structure/dynotears.py: from_numpy_dynamic, from_pandas_dynamic"]}
{"id": "C111", "title": "only the interventions in force matter", "statement": "Two engines of one network answer every query alike as soon as the interventions in force (the last accepted do_intervention on a node that no reset_do followed) ask for the same distributions, whatever was called before: interventions on different nodes may be swapped (if the engine still answers afterwards the other order is accepted too), the last intervention on a node replaces earlier ones, reset_do undoes, refused calls and queries leave no trace, do(x) is the same as do({x: 1, others: 0}) and the order of the dictionary does not matter.", "quantifier": "every network with distributions as CPDs, every two sequences of calls, all observations and orders of the engine's choices", "why_tests_cant": "Relations between unboundedly many histories of calls.", "anchors": ["causalnex/inference/inference.py: InferenceEngine.do_intervention, _do, reset_do, query, _generate_bbn"]}
{"id": "C112", "title": "with bans that leave no cycle, learning is regression on the allowed parents", "statement": "If the banned edges, parents and children leave no cycle, the minima of the objective of from_numpy / from_pandas are exactly the solutions of the normal equations of the least squares regressions of each variable on its allowed parents, whatever the multipliers; with an optimiser that returns minima, the learned weights are these regression weights, cut at the threshold. The lasso versions return weights that satisfy the optimality conditions of the lasso with penalty beta, DYNOTEARS those of the lasso on current and lagged variables with penalties lambda_w and lambda_a (only the bans within the period need to leave no cycle).", "quantifier": "all finite data, all tabu lists that leave no cycle, all thresholds and tolerances, all penalties, every exact optimiser", "why_tests_cant": "Concerns the minima of a function over all weight vectors.", "anchors": ["causalnex/structure/notears.py: from_numpy, from_numpy_lasso, from_pandas, from_pandas_lasso, _learn_structure, _learn_structure_lasso", "causalnex/structure/dynotears.py: from_numpy_dynamic, _learn_dynamic_structure"]}
{"id": "C113", "title": "standardising estimators do not depend on the units of measurement", "statement": "With standardize=True, measuring continuous features (and the target of a regressor) in other units changes nothing in what DAGRegressor and DAGClassifier learn: fit has the same outcome, and graph_, coef_, intercept_ and the feature importances are the same; predict on data in the new units returns the predictions in the new unit of the target, and a classifier returns the same probabilities and classes. What is learned from are the observations with their means subtracted and divided by their standard deviations, which have mean 0 and standard deviation 1; features that are not continuous are left as they are.", "quantifier": "all data, all changes of units x -> a x + b with a > 0, all parameters and optimisers; constant columns are only excluded for the predictions", "why_tests_cant": "Relates two fits on data related by an arbitrary change of units.", "anchors": ["causalnex/structure/pytorch/sklearn/_base.py:195-215, 254-290", "causalnex/structure/pytorch/sklearn/reg.py, clf.py: fit, predict, predict_proba"]}
{"id": "C114", "title": "Learned weights fit at least as well as every allowed acyclic structure", "statement": "NOTEARS (from_numpy, from_pandas, from_numpy_lasso, from_pandas_lasso) and DYNOTEARS, run with a numerical optimiser whose answers are within eps of the minimum of the objective it is given, learn weights that respect the bans and whose cost (half the mean squared residual, plus the L1 penalties of the lasso and dynamic versions) is at most eps above the cost of any acyclic structure that respects the bans, whatever its weights. The graph that is returned contains exactly the weights above the threshold, so with threshold 0 an acyclic result is, up to eps, a best fitting acyclic structure.", "quantifier": "For all data, all bans, all tolerances, iteration limits and thresholds, all penalty weights beta, lambda_w, lambda_a >= 0, all eps, and all competing acyclic weight matrices with real entries.", "why_tests_cant": "Tests compare the learned graph with the generating graph for a few data sets; they cannot compare it with all acyclic structures, which are super-exponentially many with a continuum of weights each.", "anchors": ["causalnex/structure/notears.py:380-440", "causalnex/structure/notears.py:480-550", "causalnex/structure/dynotears.py:333-492"]}
{"id": "C115", "title": "Learning converges without warning under the default parameters", "statement": "NOTEARS and DYNOTEARS, run with a numerical optimiser whose answers are within eps of the minimum and with an acyclicity penalty evaluated up to delta, end without a convergence warning whenever sqrt(2(m+eps)/10^19)+delta <= h_tol and sqrt(2(m+eps))+delta <= 4^(max_iter-1) h_tol, m being half the mean square of the data; and then a threshold that excludes cycles (tau^2 large compared with h_tol, as in C33) makes the result acyclic. The default parameters h_tol = 1e-8 and max_iter = 100 meet this as soon as m+eps <= 450 and delta <= 5e-10.", "quantifier": "For all data, all bans, all thresholds, all penalty weights, all eps and delta, and all optimisers of that quality.", "why_tests_cant": "Whether the ascent ends with a warning depends on the whole run of the outer loop for the data at hand; no finite set of data sets shows when it cannot happen.", "anchors": ["causalnex/structure/notears.py:380-440", "causalnex/structure/notears.py:480-550", "causalnex/structure/dynotears.py:333-492"]}
{"id": "C116", "title": "Calls of a StructureModel change exactly what they name", "statement": "remove_edge, remove_edges_from and remove_node remove exactly the named edge, edges, or node with its incident edges, and leave every other node, edge and attribute as it was; removing an edge or a node that is not there raises NetworkXError and changes nothing, while remove_edges_from ignores missing edges. add_edges_from and add_weighted_edges_from add exactly the listed edges and their endpoints, the last tuple of an edge deciding its attributes or weight; no other edge changes. A malformed tuple raises (NetworkXError, ValueError for weighted tuples) after the tuples in front of it were added.", "quantifier": "For all StructureModels reachable by any sequence of public calls, all nodes, edges and tuple lists, all origins and attributes.", "why_tests_cant": "Tests call each method on small fixed graphs and look at the edge they named; that nothing else changes in any reachable graph is a statement about all of them.", "anchors": ["causalnex/structure/structuremodel.py:60-231"]}
{"id": "C117", "title": "Predictions are made exactly for data with declared states", "statement": "For a fitted BayesianNetwork, predict and predict_probability of a name that is not a node raise NetworkXError. When all parents of the node are columns of the data, they succeed exactly when every row holds a declared state of every parent, and raise KeyError otherwise (an unknown state, a missing value); other columns are ignored. When some parent is missing from the data, they raise KeyError if some column has no declared states or the node itself is not a column, ValueError if some column is not a node, and succeed if every row holds declared states.", "quantifier": "For all fitted networks, all nodes, all data, and all answers of pgmpy. (predict_probability with all parents present: no parent named like a result column, see C21.)", "why_tests_cant": "Which rows are accepted depends on the data and on the declared states together; tests try a few data sets and mostly accepted ones.", "anchors": ["causalnex/network/network.py:412-590", "causalnex/network/network.py:290-330"]}
{"id": "C118", "title": "Learning stops at the first answer that is acyclic enough", "statement": "The structure learners first ask the optimiser with penalty weight 1, multiplier 0 and zero weights as start (the torch learner: zeros followed by the random initial values of its further layers). The bounds given to the optimiser leave exactly those weights open whose edge is not a self-loop and not forbidden by the tabu arguments. If the acyclicity penalty of that first answer is at most h_tol (1e-8 for the torch learner), or if only one iteration is allowed, the result is that answer with the weights up to w_threshold removed. The warning about convergence is then given exactly when the penalty exceeds the tolerance.", "quantifier": "For all data, tabu arguments, thresholds, tolerances and iteration limits of at least one, all optimisers and all penalty functions; NOTEARS with and without lasso and DYNOTEARS on arrays and data frames, and the torch learner on arrays.", "why_tests_cant": "Tests run the learner on a few data sets with the default tolerance; which answer is returned for every optimiser and every tolerance is not observable from them.", "anchors": ["causalnex/structure/notears.py:356-443", "causalnex/structure/notears.py:446-554", "causalnex/structure/dynotears.py:333-492", "causalnex/structure/pytorch/core.py:228-250", "causalnex/structure/pytorch/core.py:397-413"]}
{"id": "C119", "title": "Unusable arguments are refused with a definite exception", "statement": "color_gradient_string accepts exactly the strings that start with '#' and three two-digit hexadecimal bytes (AttributeError otherwise) and a number of steps other than 0 (ZeroDivisionError). Setting node states raises KeyError if a node has none, otherwise ValueError if a state is missing, otherwise TypeError if the states of a node mix integers and strings, and changes nothing then. classification_report raises ValueError without rows, for a missing true state and for a true state of the other kind than the declared ones. generate_dataframe_dynamic raises ValueError for an unknown noise type, TypeError for an integer node or a weight that is not a number, ZeroDivisionError without nodes of the current period; for acyclic structures it raises IndexError for too few drifts, ValueError for a negative scale or a number of lagged nodes that is not a multiple of the current ones, and otherwise succeeds. The SEM generators raise ValueError for a weight that is neither a number nor None. The torch learner raises ValueError without data, for values that are not finite and for a schema that does not name exactly the columns; KeyError for an unknown type or column name; ValueError for negative counts; ZeroDivisionError for an empty hidden layer; and IndexError for an ordinal column with a single value.", "quantifier": "For all arguments of the named functions; the order of the checks is part of the statement.", "why_tests_cant": "Tests cover single bad arguments; which exception wins when several things are wrong, and that nothing else is refused, are statements about all arguments.", "anchors": ["causalnex/plots/plots.py:138-186", "causalnex/network/network.py:184-211", "causalnex/evaluation/evaluation.py:115-205", "causalnex/structure/data_generators/wrappers.py:521-592", "causalnex/structure/data_generators/core.py:519-580", "causalnex/structure/pytorch/notears.py:49-394"]}
{"id": "C120", "title": "The documented workflow goes through from data to answers", "statement": "Take any StructureModel whose edges have numeric weights and whose nodes are identifiers other than 'self'. threshold_till_dag succeeds. get_largest_subgraph then returns None exactly if no edge is left; otherwise it returns a structure whose edges are edges of the original with their attributes, which BayesianNetwork accepts, whose states and CPDs can be fitted on every complete data frame that has its columns, and for which an InferenceEngine can be built that answers every query on observed states with the conditional probability under the tables estimated from the data. This holds in particular for what from_pandas and from_pandas_lasso (NOTEARS) and the torch version (its collapsed graph) learn; no edge of the network is then banned. If the data frame of numbers is discretised column by column with discretisers that fit it, the result is such data, so that every step succeeds.", "quantifier": "For all histories of a StructureModel, all data frames, bans, parameters, optimisers, schemas, discretisers, estimation methods and queries.", "why_tests_cant": "Each step has preconditions that only the guarantees of the steps before can meet (connected, acyclic, named, complete); tests run the tutorial on one data set and one optimiser.", "anchors": ["causalnex/structure/notears.py:57-353", "causalnex/structure/pytorch/notears.py:230-394", "causalnex/structure/structuremodel.py:243-303", "causalnex/network/network.py:92-411", "causalnex/inference/inference.py:60-200", "causalnex/discretiser/discretiser.py:159-213"]}
{"id": "C121", "title": "The workflow goes through from time series to answers", "statement": "Take the structure that from_pandas_dynamic learns from time series whose variable names are identifiers. threshold_till_dag succeeds, and get_largest_subgraph returns None exactly if no edge is left; otherwise it returns a structure whose edges all lead from a variable at some lag of at most p to a variable at lag 0 and are not banned, which BayesianNetwork accepts, and with which an engine fitted on complete data with the lagged columns answers every query by the conditional probability under the estimated tables. DynamicDataTransformer(p).fit_transform of the same series as a data frame, discretised column by column, is such data: the row of a time has, in the column of variable c at lag k, the interval of the value of c k steps before.", "quantifier": "For all lists of time series with strictly increasing index, p >= 1, bans, parameters, optimisers, discretisers, estimation methods and queries.", "why_tests_cant": "The column names of the transformer, the node names of the learner and the identifiers the engine accepts have to agree for every variable name and lag, and the alignment of lags has to survive gaps; tests fix a few names and never run the steps together.", "anchors": ["causalnex/structure/dynotears.py:45-159", "causalnex/structure/transformers.py:65-155", "causalnex/structure/structuremodel.py:243-303", "causalnex/network/network.py:92-411", "causalnex/inference/inference.py:60-200", "causalnex/discretiser/discretiser.py:159-213"]}
{"id": "C122", "title": "The rules of the do-calculus hold for the engine", "statement": "Whatever interventions are in force on an InferenceEngine, its answers obey Pearl's three rules, read off the graph of the network. Let X be the variables with an intervention in force. (1) Evidence on variables that are d-separated from u by the other evidence, and by the variables of X that are set to a value, in the graph without the arrows into X does not change the answer for u. (2) If the variables of Z are d-separated from u in that graph with the arrows out of Z removed as well, then setting all of Z to given values with do_intervention and observing these values give the same answer for u. (3) If the variables of Z are d-separated from u in the graph without the arrows into X and into those of Z that are not ancestors of the evidence, then interventions on Z, with any distributions, do not change the answer for u.", "quantifier": "For all networks with good CPDs, all sequences of calls that lead to the engines compared, all sets X and Z, all evidence that can occur, all variables and states.", "why_tests_cant": "The rules relate answers of engines with different sets of interventions and hold by graph conditions over all trails; a test can compare numbers on one graph only.", "anchors": ["causalnex/inference/inference.py:94-290", "causalnex/ebaybbn/bbn.py:86-180"]}
{"id": "C123", "title": "The structure learners run the augmented Lagrangian method", "statement": "Every structure learner runs the augmented Lagrangian method on the answers of its optimiser. It asks for a penalty weight (1 at first) and a multiplier (0 at first). If the acyclicity penalty of the answer is more than a quarter of that of the last accepted answer, the weight is multiplied by ten and the question repeated from the same start; otherwise the answer is accepted, and unless its penalty is within the tolerance the next question starts from it with the multiplier raised by weight times penalty. The learner returns the answer at which the method ends: within the tolerance, out of iterations, or with a weight of at least 1e20 (1e16 for the torch learner). The warning about convergence is given exactly when the method did not end within the tolerance; the torch learner gives it exactly when the iterations ran out, not when the weight reached its limit.", "quantifier": "For all data, tabu arguments, thresholds, tolerances that are not negative, iteration limits of at least one, and all optimisers whose answers have finite penalties; NOTEARS with and without lasso and DYNOTEARS on arrays and data frames, and the torch learner on arrays.", "why_tests_cant": "Tests compare a learned structure with the one that generated the data; an error in how the weight or the multiplier moves shows only as slower convergence or slightly different weights.", "anchors": ["causalnex/structure/notears.py:420-443", "causalnex/structure/notears.py:533-554", "causalnex/structure/dynotears.py:470-492", "causalnex/structure/pytorch/core.py:228-250", "causalnex/structure/pytorch/core.py:360-417"]}
{"id": "C124", "title": "The torch learner fits at least as well as every allowed network without cycles", "statement": "If the optimiser's answers are within eps of the minimum of the penalised objective under the given bounds, then the parameters found by the torch learner respect all bans, and their objective (loss of all variables plus regularisation, without the penalty) is at most eps above that of every network of the same architecture that respects the bans and whose variables do not act on each other in a cycle. With enough iterations for the range of the objective no convergence warning is given. Without a warning the computed acyclicity penalty is at most 1e-8, or at most sqrt(2 range / 1e15) plus the error of its computation: the learner also stops silently when the penalty's weight is at its limit. For a linear model and a threshold that excludes cycles at that penalty the learned graph is acyclic. Nothing but the bans restricts the search: a weight is kept at zero exactly if its two columns belong to one variable or to two variables between which the edge is banned.", "quantifier": "For all data, schemas of any mix of the five kinds, hidden layers, bias settings, tabu arguments that name variables, regularisation strengths, all optimisers as described, all penalty functions with an error of at most delta, and all competing networks.", "why_tests_cant": "A test can compare a learned structure with a known one for a few seeds; it cannot compare the fit with all other networks, and a weight wrongly kept at zero only makes the fit worse.", "anchors": ["causalnex/structure/pytorch/notears.py:143-185", "causalnex/structure/pytorch/core.py:228-250", "causalnex/structure/pytorch/core.py:356-417", "causalnex/structure/pytorch/dist_type/_base.py:230-310"]}
{"id": "C125", "title": "The answers of a fitted network approach the population", "statement": "Let a population have the independences of the structure: every node is independent of the earlier nodes given its parents. Fit a BayesianNetwork with that structure to complete data and ask an InferenceEngine. For every query and every eps there is a delta such that, whenever the frequencies in the data of each node with its parents are within delta of those in the population, the answer is within eps of the population's conditional probability. Only the frequencies of families have to be close, not those of the combination asked about. This holds for maximum likelihood for any number of rows, and for the Bayesian estimator (K2, or BDeu with any positive equivalent sample size) once there are at least 1/delta rows. A state with no answer was never seen and has share zero among those showing the observations.", "quantifier": "For all structures accepted by the constructor, all populations with finitely many kinds of individuals and real weights, all values, all observations with a positive share, nodes, states and eps, all complete data frames of any size, and all triangulation orders of the engine.", "why_tests_cant": "A test fits one data set and compares with numbers computed from the same data; whether the answers converge for more and more data, for each structure and each query, is a statement about infinitely many data sets.", "anchors": ["causalnex/network/network.py:271-312", "causalnex/network/network.py:314-379", "causalnex/inference/inference.py:126-149"]}
{"id": "C126", "title": "With independent draws from the population the answers are close with probability approaching one", "statement": "Draw n individuals independently from a population that has the independences of the structure, put them into a data frame, fit a BayesianNetwork with that structure (maximum likelihood, K2, or BDeu with a positive equivalent sample size) and ask an InferenceEngine. For every query with observations of positive probability, every eps and every eta there is an n0 such that for all n >= n0, with probability at least 1 - eta, everything succeeds and the answer is within eps of the population's conditional probability (a state without an answer was not drawn and has conditional probability zero).", "quantifier": "For all structures accepted by the constructor, all populations with finitely many kinds of individuals and real weights, all observations, nodes, states, eps and eta, all sample sizes from n0, and all triangulation orders.", "why_tests_cant": "A test draws a few samples with fixed seeds; that the probability of a wrong answer tends to zero is a statement about all samples of all sizes.", "anchors": ["causalnex/network/network.py:271-312", "causalnex/network/network.py:314-379", "causalnex/inference/inference.py:126-149"]}
{"id": "C127", "title": "The estimated effects of interventions approach those in the population", "statement": "Let the data come from a population in which every node is independent of the nodes before it given its parents, fit a BayesianNetwork with that structure (maximum likelihood, K2, or BDeu with a positive equivalent sample size), give it to an InferenceEngine and call do_intervention(v, q) with a state or a distribution q whose states occur for every combination of values of the parents of v. Whenever the intervention and a following query succeed, the answers are within eps of the conditional probabilities in the population in which v is drawn from q for everyone, independently of its parents, with the parents and everything given v and its parents unchanged: for data close enough to the population, and, with n independent draws, with probability approaching one. So confounding by the parents is removed: setting a value and observing it give different answers in general.", "quantifier": "For all structures accepted by the constructor, all populations with finitely many kinds of individuals and real weights, all nodes, all distributions with positivity, all observations of positive probability after the intervention, all eps and eta, and all triangulation orders.", "why_tests_cant": "A test compares one intervention on one data set with a number; that the estimates converge to the causal effects for every population, structure and intervention is a limit statement.", "anchors": ["causalnex/inference/inference.py:126-149", "causalnex/inference/inference.py:151-214", "causalnex/network/network.py:271-312", "causalnex/network/network.py:314-379"]}
{"id": "C128", "title": "Networks built from conditional tables answer with the probabilities the tables describe", "statement": "build_bbn_from_conditionals(conds), where conds gives for every variable a list of rows (values of the parents, probability of each state), succeeds whenever the rows of a variable name the same parents and states, there is one row for every combination of states of the parents, the parents form a connected graph without cycles and each row sums to one. Then query(**evidence) returns, for every variable and each of its states and nothing else, the conditional probability given the evidence in the network whose joint distribution is the product of the entries of the rows. The order of the variables, of the rows, of the parents within a row and of the states within a row does not matter. If rows do not sum to one, the answers under evidence of positive weight are the quotients of the sums of products of the entries. If the row for some combination of states of the parents is missing, no query returns an answer.", "quantifier": "For all tables with any numbers of variables, parents and states, all evidence over known variables and states, all iteration orders of the sets of states and all triangulation orders.", "why_tests_cant": "A test compares a few networks with hand computed numbers; the code reorders parents alphabetically, looks rows up by tuples of pairs and collects states in sets, and that all of these agree for every writing of every table needs a proof.", "anchors": ["causalnex/ebaybbn/bbn.py:772-809", "causalnex/ebaybbn/bbn.py:812-819", "causalnex/ebaybbn/bbn.py:125-155", "causalnex/ebaybbn/utils.py:73-94"]}
{"id": "C129", "title": "Predictions are majority votes and do not depend on the estimator", "statement": "For a BayesianNetwork whose CPDs were fitted on data with any method and prior, predict(test, node) with all parents of node among the columns of test returns for every row the state that most of the training rows with the same values of the parents have (training rows with missing or undeclared values do not count); among states with equally many rows it is the first declared one. Hence fitting by maximum likelihood, with the K2 prior or with the BDeu prior of any positive equivalent sample size gives the same predictions, and the same errors for rows with unknown values. On the training data themselves no rule that looks at the parents of the node only is right for more rows. Hence a structure that gives the node more parents never predicts it worse on the training data.", "quantifier": "For all networks, training data, test data, nodes, methods, priors and equivalent sample sizes, and all rules.", "why_tests_cant": "Tests compare predictions for a few data sets and one prior; that smoothing never changes a prediction, that ties are resolved by the order of the states alone, and that no rule is better, are statements about all counts and all rules.", "anchors": ["causalnex/network/network.py:412-427", "causalnex/network/network.py:429-458", "causalnex/network/network.py:314-379"]}
{"id": "C130", "title": "With enough data, predictions are right as often as those of the best possible rule", "statement": "Let a population have the independences of the structure (every node is independent of the nodes before it given its parents). If the frequencies in the training data of every node with its parents are near enough to those in the population, then the predictions of the fitted network for a node v, given the values of its parents, are right for at least as large a share of the population as those of any rule that looks at any nodes before v in an order with parents first; not only nearly as large. With independent draws this happens with probability as near to one as wanted when there are enough draws. A rule that looks at descendants of v can be better, as predict does not look at these when all parents are given.", "quantifier": "For all structures, populations with these independences, orders, nodes, estimation methods and priors, all rules; for all data near the population and all numbers of draws from some number on.", "why_tests_cant": "That no rule whatsoever does better cannot be tested, nor can a limit statement about the number of draws.", "anchors": ["causalnex/network/network.py:412-427", "causalnex/network/network.py:429-458", "causalnex/network/network.py:314-379", "causalnex/network/network.py:381-410"]}
{"id": "C131", "title": "Figures show the whole structure, or the strongest acyclic part of a fitted graph, and change nothing", "statement": "plot_structure(sm, ...) hands to pygraphviz exactly the nodes and edges of sm, with attributes for single nodes and edges before those for all before the defaults, and graph_attributes before GRAPH_STYLE, and the layout program asked for. plot_dag of a fitted estimator does this with its graph; with enforce_dag=True and weighted edges what is drawn has no cycle, no edge left out is stronger than one that is drawn, and if edges are left out the strongest of them would close a cycle. The graph of the estimator, the styles and everything else that existed before are never modified. Without plot_structure_kwargs (or with an empty dictionary) the weak styles, scale 0.5 and neato are used; any keyword replaces all of these defaults. An estimator that is not fitted raises NotFittedError and an unknown keyword TypeError.", "quantifier": "For all structures, attributes, weights, styles, keywords and display options.", "why_tests_cant": "Tests look at one figure or only check that plotting does not raise; that the dictionaries of the estimator and the shared styles are never written to, and which edges are left out, concern all graphs and all arguments.", "anchors": ["causalnex/plots/plots.py:39-135", "causalnex/plots/plots.py:189-224", "causalnex/plots/plots.py:227-298", "causalnex/structure/pytorch/sklearn/_base.py:348-402", "causalnex/plots/display.py:52-121", "causalnex/structure/structuremodel.py:296-303"]}
{"id": "C132", "title": "The graphviz text of a network lists every node and edge once and tells the structure", "statement": "For the network that build_bbn builds from functions (one for every variable, the arguments being the variable and its parents), get_graphviz_source returns a text with one line for every node, in the order of the names, then one line for every pair of a parent and a child, in the order of the pairs, and nothing else between the fixed first and last lines. The order in which the functions are listed does not matter. For names without spaces and newlines two networks have the same text exactly if they have the same nodes and the same edges; for other names this fails, because names are not quoted.", "quantifier": "For all networks built from functions with distinct names and for all orders of the functions; for all pairs of networks.", "why_tests_cant": "The test compares the text of one network; that the text determines the network, and that it does not depend on the order of the functions, concerns all (pairs of) networks.", "anchors": ["causalnex/ebaybbn/bbn.py:88-101", "causalnex/ebaybbn/bbn.py:722-769", "causalnex/ebaybbn/graph.py:66-74"]}
{"id": "C133", "title": "The accuracy on held-out data tells the accuracy in the population", "statement": "Let a network be fitted to complete training data that show every value of a node's parents (by maximum likelihood or with priors). Let test data be within eps of a population in the shares of the combinations of the node's value with its parents' values. Then the share of test rows for which predict is right differs from the share of the population for which its predictions are right by at most eps times the number of combinations of the parents' values. This share is what classification_report shows as recall of the weighted average, and as accuracy where it shows one. If the population has the conditional independences of the structure and the training data are near it too, the share is as near as wanted to the best that any rule looking at nodes before the node can reach; for independent draws this happens with probability as near to one as wanted, given enough training and enough test rows.", "quantifier": "For all structures, training and test data, nodes, populations, estimators and priors; for all tolerances and probabilities.", "why_tests_cant": "Tests compare the numbers for one test set with fixed expected values; that the reported accuracy estimates the accuracy in the population, with which error and with which probability, concerns all data sets and all samples.", "anchors": ["causalnex/network/network.py:412-458", "causalnex/evaluation/evaluation.py:115-205"]}
{"id": "C134", "title": "Predicted probabilities are calibrated", "statement": "Let a network be fitted to complete data, by maximum likelihood unless said otherwise. Take any set of probabilities and any state of a node. Among the training rows for which predict_probability gives the state a probability in the set, the rows that show the state are exactly as many as the probabilities add up to; in particular, of the rows for which it says 70% exactly 70% show the state. For other data with nearly the same shares of the combinations of the node's and its parents' values the numbers differ by at most a share of the rows that is twice the difference of the shares times the number of combinations of the parents' values. For independent draws of training and test data the difference is as small as wanted with probability as near to one as wanted, given enough of both and whatever the estimator; the population need not have the independences of the structure. With a prior the probabilities need not be exactly calibrated on the training data, but the numbers differ by no more rows than the prior adds to the counts: the equivalent sample size for BDeu, one for each cell of the table for K2.", "quantifier": "For all structures, data, nodes whose parents are columns of the data, states and sets of probabilities; for all populations, tolerances and probabilities.", "why_tests_cant": "Tests compare the probabilities of a few rows with fixed numbers; calibration concerns all rows and all sets of probabilities together, and its validity beyond the training data is a statement about probabilities of samples.", "anchors": ["causalnex/network/network.py:314-410", "causalnex/network/network.py:490-543"]}
{"id": "C135", "title": "Predicted probabilities have the least squared error", "statement": "Let a network be fitted by maximum likelihood to complete data, and score rules that give each state of a node a number by the Brier score: the sum, over the training rows and the states, of the squared difference between the number and 1 or 0 as the row shows the state or not. No rule that looks only at the values of the node's parents scores less than predict_probability; the score of any such rule exceeds that of predict_probability by exactly the sum of the squared differences between the two, so another rule scores the same only if it says the same on every training row. A structure that gives the node more parents never scores more on the training data. With a prior the score need not be the least. On other data with nearly the same shares of the combinations of the node's and its parents' values, no rule that looks only at the parents and gives numbers between 0 and 1 has a mean score much smaller, for any of the estimators; for independent draws of training and test data the gain of the best such rule, even one chosen after seeing the test data, is as small as wanted with probability as near to one as wanted, given enough of both.", "quantifier": "For all structures, data, nodes whose parents are columns of the data, and rules that look only at the parents; for all populations, tolerances and probabilities.", "why_tests_cant": "Tests compare the probabilities of a few rows with fixed numbers; that no other rule does better is a statement about all rules.", "anchors": ["causalnex/network/network.py:314-410", "causalnex/network/network.py:490-543"]}
