{"id": "C01", "title": "Edge numbering of the complete graph is a bijection", "statement": "find_complete_edge is symmetric, maps the unordered pairs of distinct vertices below V one-to-one onto range(V(V-1)/2), and agrees with make_complete_graph: column k of the grid is (k, v1, v2) with v1 < v2 and find_complete_edge(v1, v2) == find_complete_edge(v2, v1) == k.", "quantifier": "every number of vertices V and every pair of distinct vertices", "why_tests_cant": "tests compare the grid with literals for V <= 4 only; injectivity must hold at every V", "anchors": ["treecat/structure.py:find_complete_edge", "treecat/structure.py:make_complete_graph"]}
{"id": "C02", "title": "A tree is stored in canonical form", "statement": "make_tree / TreeStructure.set_edges keep exactly the given unordered edges, each written small-endpoint-first, sorted, numbered 0..E-1; the stored grid does not depend on the order or orientation in which edges are given, get_edges returns the canonical list, and two TreeStructures on V vertices compare equal iff their edge multisets are equal. set_edges rejects a list whose length is not V-1.", "quantifier": "every list of edges, every permutation and re-orientation of it", "why_tests_cant": "five literal trees are tested; order/orientation independence quantifies over all permutations", "anchors": ["treecat/structure.py:make_tree", "treecat/structure.py:TreeStructure.set_edges", "treecat/structure.py:TreeStructure.get_edges", "treecat/structure.py:TreeStructure.__eq__"]}
{"id": "C03", "title": "find_center_of_tree returns a maximally central vertex", "statement": "On every tree find_center_of_tree terminates without an exception and returns a vertex whose eccentricity (greatest graph distance to another vertex) is minimal among all vertices.", "quantifier": "every tree with any number of vertices", "why_tests_cant": "nine literal trees are tested; minimal eccentricity is a claim about all trees and all vertices", "anchors": ["treecat/structure.py:find_center_of_tree"]}
{"id": "C04", "title": "Propagation programs schedule every message after its inputs", "statement": "For every tree and every root (default: the center) make_propagation_program returns 2V+2E+1 instructions: exactly one UP and one DOWN per vertex, one IN and one OUT per tree edge, one ROOT; operands name a real edge of the tree with its grid index; every IN from a child comes after the child's UP and all INs into the child and after the parent's UP; ROOT comes after every UP and IN; every OUT to a vertex comes after ROOT and after the parent's DOWN; each DOWN directly follows the vertex's OUT (or ROOT). All operands fit the int16 storage when V <= 32768.", "quantifier": "every tree, every root vertex, every V up to 32768 for the storage claim", "why_tests_cant": "ten literal trees are tested; schedules of larger or differently shaped trees are not covered, nor int16 limits", "anchors": ["treecat/structure.py:make_propagation_program"]}
{"id": "C05", "title": "sample_tree always returns a spanning tree and stays in bounds", "statement": "From every spanning tree on V vertices, for every vector of edge logits and every outcome of the random number generator, sample_tree returns V-1 edges forming a spanning tree, in sorted canonical form, and no jit-compiled array access (adjacency sets, DFS stack, candidate-edge buffer) leaves its array or loops forever.", "quantifier": "every spanning tree, every logit vector, every sequence of random draws and scan orders", "why_tests_cant": "a statistical test samples trees with at most 6 vertices; numba does no bounds checking so an overflow on some shape would be silent", "anchors": ["treecat/structure.py:sample_tree", "treecat/structure.py:jit_remove_edge", "treecat/structure.py:jit_add_edge", "treecat/structure.py:jit_set_add", "treecat/structure.py:jit_set_remove", "treecat/structure.py:jit_set_pop"]}
{"id": "C06", "title": "Candidate replacement edges are exactly the bridging pairs", "statement": "After one edge of a spanning tree is removed, the set of candidate edges handed to the sampler is exactly the set of vertex pairs with one endpoint in each of the two remaining connected components, each listed once in increasing edge index; in particular it contains the removed edge.", "quantifier": "every spanning tree and every one of its edges", "why_tests_cant": "no unit test; a missing or extra candidate biases or breaks trees only on particular shapes", "anchors": ["treecat/structure.py:find_valid_edges", "treecat/structure.py:jit_remove_edge"]}
{"id": "C07", "title": "sample_tree leaves the tree posterior invariant", "statement": "Treating draws as exact, one call of sample_tree is a Markov kernel on spanning trees that leaves P(T) proportional to exp(sum of edge logits over T) invariant.", "quantifier": "every V, every real logit vector, every pair of spanning trees", "why_tests_cant": "a chi-squared test on <= 6 vertices with random logits can only fail to reject; invariance is an exact identity over all trees", "anchors": ["treecat/structure.py:sample_tree", "treecat/util.py:sample_from_probs"]}
{"id": "C08", "title": "estimate_tree returns a maximum-likelihood spanning tree", "statement": "For every V >= 1 and real logits, estimate_tree returns V-1 canonical edges forming a spanning tree whose total logit is at least that of every other spanning tree (the shift to weights >= 1 never hides an edge from the sparse MST routine), provided scipy's minimum_spanning_tree returns a minimum spanning tree of the nonzero entries.", "quantifier": "every number of vertices and every real logit vector", "why_tests_cant": "optimality is tested against enumeration only for V <= 5 and one seed", "anchors": ["treecat/structure.py:estimate_tree", "treecat/structure.py:triangular_to_square"]}
{"id": "C09", "title": "triangular_to_square unpacks symmetrically", "statement": "For every triangle of length K = V(V-1)/2, triangular_to_square recovers V exactly from K and returns the symmetric V x V matrix with zero diagonal whose (u,v) entry is triangle[find_complete_edge(u,v)].", "quantifier": "every V >= 1 and every triangle", "why_tests_cant": "no unit test; V is recovered through a square root and rounding", "anchors": ["treecat/structure.py:triangular_to_square"]}
{"id": "C10", "title": "print_tree is a faithful outline of the tree", "statement": "For every tree, feature names and root, print_tree emits each feature exactly once, root first with no indentation, and reading the indentation back as an outline (the parent of a line is the nearest earlier line indented one level less) reconstructs exactly the edges of the tree.", "quantifier": "every tree, every root", "why_tests_cant": "the test only counts lines", "anchors": ["treecat/structure.py:print_tree"]}
{"id": "C11", "title": "order_vertices returns a permutation, its inverse, and keeps subtrees together", "statement": "For every tree, and whatever order Python iterates neighbor sets in, order_vertices returns two mutually inverse permutations of range(V), and in that order every branch hanging below the center occupies contiguous positions.", "quantifier": "every tree and every set-iteration order", "why_tests_cant": "untested; set iteration order is not even deterministic across Python builds", "anchors": ["treecat/structure.py:order_vertices"]}
{"id": "C12", "title": "Categorical sampling is exact", "statement": "sample_from_probs returns, for every nonnegative weight vector with positive total and every uniform draw u in [0,1), an index in range whose weight is positive, and returns index i for exactly the u in an interval of length probs[i]/sum(probs); sample_from_probs2 does this independently per row.", "quantifier": "every weight vector and every draw", "why_tests_cant": "a goodness-of-fit test samples sizes < 15; zero weights and interval ends are not hit", "anchors": ["treecat/util.py:sample_from_probs", "treecat/util.py:sample_from_probs2"]}
{"id": "C13", "title": "Quantization hits the total and is L1-optimal", "statement": "quantize_from_probs2 returns nonnegative integers summing to resolution in every row; each entry differs from the real-valued target probs*resolution/sum by less than 1; and no other integer vector with the same sum is closer to the target in L1 distance.", "quantifier": "every probability row and every resolution", "why_tests_cant": "the test compares only with 0/1-valued alternatives for a few sizes <= 5", "anchors": ["treecat/util.py:quantize_from_probs2"]}
{"id": "C14", "title": "Ragged columns tile the data without gap or overlap", "statement": "make_ragged_index gives each column a block of its own width, blocks are disjoint and cover range(R); make_ragged_mask sets a ragged position iff the dense mask is set for the unique column owning it; count_observations sums exactly the block of each column and guess_counts is the column maximum (as long as sums fit the int8 storage).", "quantifier": "every list of column widths, every mask, every table", "why_tests_cant": "untested directly", "anchors": ["treecat/util.py:make_ragged_index", "treecat/util.py:make_ragged_mask", "treecat/util.py:count_observations", "treecat/util.py:guess_counts"]}
{"id": "C15", "title": "Config serialization round-trips and names are unique", "statement": "serialize_config is injective on integer configs (two different configs never share a model filename) and deserialize_config inverts it for every config without negative values (and raises AssertionError for any with one); make_config rejects unknown options and overrides exactly the given defaults.", "quantifier": "every integer-valued config", "why_tests_cant": "a test uses a few values; injectivity and the behaviour on negative values quantify over all integers", "anchors": ["treecat/config.py:serialize_config", "treecat/config.py:deserialize_config", "treecat/config.py:make_config"]}
{"id": "C16", "title": "Annealing schedules are well-formed and terminate", "statement": "For every num_rows, epochs >= 1 and sample_tree_rate >= 1 and every shuffle, the schedule terminates; every add_row names a row not currently assigned, every remove_row a row currently assigned, the subsample is never empty after the first step, and at the end every row is assigned exactly once. With epochs=1 there is no removal; the number of add_row actions never exceeds num_rows*epochs.", "quantifier": "every number of rows, every rational epochs and rate >= 1, every shuffle", "why_tests_cant": "one test with N=10, epochs=10; it checks only ranges and the final count", "anchors": ["treecat/training.py:make_annealing_schedule"]}
{"id": "C17", "title": "Tree sampling cadence of the schedule", "statement": "The first sample_tree action directly follows the first add_row; after a sample_tree taken with n rows assigned, the next one comes directly after exactly ceil(n/sample_tree_rate) further add_row actions (or never, if the schedule ends first); sample_tree is never emitted with an empty subsample.", "quantifier": "every number of rows, epochs and rate", "why_tests_cant": "untested", "anchors": ["treecat/training.py:make_annealing_schedule"]}
{"id": "C18", "title": "Sufficient statistics equal counts from scratch after any history", "statement": "After any sequence of add_row, remove_row and set_edges calls (in any order allowed by their assertions), whatever classes were sampled, the vertex, edge, feature and measurement statistics and the maintained edge pseudo-counts equal what one would count from scratch from the assignments of exactly the currently added rows under the current tree; add_row of an added row and remove_row of an absent row are rejected without changing anything.", "quantifier": "every table, every operation history, every random outcome", "why_tests_cant": "tests check the end of one training run per tiny table; drift in some history would go unseen", "anchors": ["treecat/training.py:TreeCatTrainer.add_row", "treecat/training.py:TreeCatTrainer.remove_row", "treecat/training.py:TreeCatTrainer.set_edges", "treecat/training.py:treecat_add_row", "treecat/training.py:treecat_remove_row", "treecat/training.py:count_pairs"]}
{"id": "C19", "title": "Training always ends in a valid model", "statement": "For every table with V >= 1 features and every admissible config, for every outcome of the random number generator, train() raises no exception and returns a model with all rows added, assignments in range(M), a spanning tree, a matching propagation program, and statistics satisfying vert_ss rows sum to N, edge_ss margins equal vert_ss, feat_ss block margins equal meas_ss and the data column sums.", "quantifier": "every table, config and random outcome", "why_tests_cant": "tests run six tiny shapes with fixed seeds", "anchors": ["treecat/training.py:TreeTrainer.train", "treecat/training.py:TreeCatTrainer.train", "treecat/training.py:train_model"]}
{"id": "C20", "title": "Edge logits depend only on the current subsample", "statement": "compute_edge_logits scores every candidate edge from the class assignments of exactly the currently added rows (plus the prior); assignments of rows outside the subsample have no influence.", "quantifier": "every trainer state reachable during annealing", "why_tests_cant": "a wrong row selection changes only numeric scores, in a state where the subsample size coincides with the number of features", "anchors": ["treecat/training.py:TreeCatTrainer.compute_edge_logits"]}
{"id": "C21", "title": "Parallel edge scoring equals sequential scoring under every schedule", "statement": "treecat_compute_edge_logits_par yields the same logits as the sequential version whatever order and interleaving prange executes the iterations in, and every lookup in the gammaln table is in bounds.", "quantifier": "every permutation of the iterations, every assignment matrix", "why_tests_cant": "thread schedules cannot be enumerated by tests", "anchors": ["treecat/training.py:treecat_compute_edge_logits_par", "treecat/training.py:treecat_compute_edge_logits_seq", "treecat/training.py:treecat_compute_edge_logit"]}
{"id": "C22", "title": "add_row samples latent classes exactly from their conditional", "statement": "Treating draws as exact, the vector of latent classes chosen by add_row has probability proportional to the product over vertices of (class count + prior) times the Polya likelihood of the row's cell, times over tree edges of (pair count + prior) / (product of endpoint class weights) - the full conditional of the tree model - for every root the program uses.", "quantifier": "every tree, every statistics state, every data row, every assignment vector", "why_tests_cant": "goodness-of-fit tests cover <= 4 cells and cannot certify exactness", "anchors": ["treecat/training.py:treecat_add_row", "treecat/training.py:treecat_add_cell", "treecat/structure.py:make_propagation_program"]}
{"id": "C23", "title": "remove_row followed by add_row is a Gibbs step for logprob", "statement": "The distribution over assignments proportional to exp(trainer.logprob()) is invariant under remove_row(n); add_row(n), for every row n, tree and data, given only log-gamma's recurrence.", "quantifier": "every state, every row", "why_tests_cant": "tested statistically on at most 4 rows and 4 columns", "anchors": ["treecat/training.py:TreeCatTrainer.logprob", "treecat/training.py:treecat_add_row", "treecat/training.py:treecat_remove_row"]}
{"id": "C24", "title": "Ensemble members are deterministic and independent of scheduling", "statement": "train_ensemble returns model_ensemble_size models, the i-th being exactly what train_model returns with seed+i, whatever the prior state of the random generators, the number of workers, or the assignment of tasks to workers; the caller's config is not modified.", "quantifier": "every config, every assignment of tasks to worker processes, every prior RNG state", "why_tests_cant": "process scheduling and RNG history cannot be enumerated", "anchors": ["treecat/training.py:train_ensemble", "treecat/training.py:train_model", "treecat/util.py:parallel_map", "treecat/util.py:set_random_seed"]}
{"id": "C25", "title": "Server parameters are consistent probability distributions", "statement": "For every model whose statistics are consistent (as produced by training), the server's vertex, edge and feature-conditional tables are strictly positive, normalized, and each edge table's margins equal its endpoints' vertex tables.", "quantifier": "every consistent model", "why_tests_cant": "tests sum probabilities for a few random models in floating point", "anchors": ["treecat/serving.py:TreeCatServer.__init__"]}
{"id": "C26", "title": "logprob is the exact marginal log-likelihood", "statement": "logprob(row) equals the logarithm of the sum over all M^V latent assignments of the tree-structured joint probability times the per-cell likelihood; in particular the rescaling during message passing cancels and the result does not depend on which vertex is the root.", "quantifier": "every model, every row of counts, every root", "why_tests_cant": "brute force over M^V is infeasible beyond toy sizes", "anchors": ["treecat/serving.py:TreeCatServer.logprob"]}
{"id": "C27", "title": "logprob is normalized and marginalizes correctly", "statement": "The probabilities exp(logprob) of all fully observed categorical rows sum to 1; the empty row has log probability 0; summing over the categories of one feature equals leaving that feature unobserved.", "quantifier": "every consistent model", "why_tests_cant": "the test enumerates rows for V <= 6 with tolerance", "anchors": ["treecat/serving.py:TreeCatServer.logprob"]}
{"id": "C28", "title": "Sampled rows have the requested counts", "statement": "server.sample(N, counts, data) returns N rows of nonnegative integers in which the block of feature v sums to counts[v], for every random outcome; evidence is not copied into the samples; the ensemble server returns exactly N rows with the same property.", "quantifier": "every model, counts, evidence and random outcome", "why_tests_cant": "tests try counts in {0,1,2} on one table", "anchors": ["treecat/serving.py:TreeCatServer.sample", "treecat/serving.py:EnsembleServer.sample"]}
{"id": "C29", "title": "Single-model sampling is distributed as logprob says", "statement": "Treating draws as exact, the probability that sample(1, ones, evidence) returns row x equals exp(logprob(x + evidence) - logprob(evidence)).", "quantifier": "every consistent model, every evidence row, every fully observed row x", "why_tests_cant": "chi-squared tests on <= 4 binary features, some marked flaky", "anchors": ["treecat/serving.py:TreeCatServer.sample", "treecat/serving.py:TreeCatServer.logprob"]}
{"id": "C30", "title": "marginals are posterior marginals given all evidence", "statement": "marginals(data)[v] is the posterior predictive distribution of feature v given the whole conditioning row, i.e. proportional over categories c to exp(logprob(data + e_{v,c})).", "quantifier": "every model and every conditioning row", "why_tests_cant": "the test checks only that blocks sum to one", "anchors": ["treecat/serving.py:TreeCatServer.marginals"]}
{"id": "C31", "title": "median has the requested counts and minimizes L1 loss to the marginals", "statement": "median(counts, data) returns rows whose block v sums to counts[v] and which is L1-closest, among integer blocks with that sum, to counts[v] times the marginals.", "quantifier": "every model, counts and evidence", "why_tests_cant": "tests check sums only", "anchors": ["treecat/serving.py:ServerBase.median", "treecat/util.py:quantize_from_probs2"]}
{"id": "C32", "title": "observed_perplexity honours the requested counts", "statement": "observed_perplexity(counts) is the exponential entropy of each feature's predictive distribution for counts[v] draws (defaulting to one draw when counts is None), between 1 and the number of possible outcomes.", "quantifier": "every model and every counts vector", "why_tests_cant": "the test passes counts=1 and only checks a loose bound", "anchors": ["treecat/serving.py:TreeCatServer.observed_perplexity", "treecat/serving.py:multinomial_entropy"]}
{"id": "C33", "title": "latent_perplexity lies in [1, M]", "statement": "latent_perplexity returns for every feature a number between 1 and the number of clusters, for single models and ensembles.", "quantifier": "every consistent model and ensemble", "why_tests_cant": "tested on seven random models", "anchors": ["treecat/serving.py:TreeCatServer.latent_perplexity", "treecat/serving.py:EnsembleServer.latent_perplexity"]}
{"id": "C34", "title": "latent_correlation is the correlation of the exact pairwise joint", "statement": "latent_correlation()[u,v] = sqrt(1 - exp(-2 I)) where I is the mutual information of the exact joint distribution of the latent classes of u and v under the tree model; the matrix is symmetric, entries lie in [0,1), and every row's maximum is on the diagonal.", "quantifier": "every consistent model, every pair of features", "why_tests_cant": "tested on seven random models in floating point", "anchors": ["treecat/serving.py:TreeCatServer.latent_correlation", "treecat/serving.py:correlation"]}
{"id": "C35", "title": "Ensemble logprob is the uniform mixture of its members", "statement": "exp(EnsembleServer.logprob(row)) is the arithmetic mean of the members' probabilities; hence it is normalized when the members are.", "quantifier": "every ensemble, every row", "why_tests_cant": "tests check shape and finiteness", "anchors": ["treecat/serving.py:EnsembleServer.logprob"]}
{"id": "C36", "title": "Ensemble sampling is distributed as ensemble logprob says", "statement": "The probability that EnsembleServer.sample(1, ones, evidence) returns x equals exp(logprob(x + evidence) - logprob(evidence)) of the same ensemble server.", "quantifier": "every ensemble, evidence and row", "why_tests_cant": "goodness-of-fit tests are noisy and partly marked flaky; the error is evidence-dependent", "anchors": ["treecat/serving.py:EnsembleServer.sample", "treecat/serving.py:EnsembleServer.logprob"]}
{"id": "C37", "title": "DataServer.logprob with evidence is conditional log probability", "statement": "DataServer.logprob(rows, evidence) returns server.logprob(rows + evidence) - server.logprob(evidence) for each row, as documented.", "quantifier": "every schema, rows and evidence", "why_tests_cant": "never called with evidence in the tests", "anchors": ["treecat/serving.py:DataServer.logprob"]}
{"id": "C38", "title": "DataServer.median accepts one evidence row", "statement": "DataServer.median(evidence) returns a full row for a single evidence dict, for single models and for ensembles, as documented.", "quantifier": "every dataset, model and evidence dict", "why_tests_cant": "tests pass a list instead of a dict and swallow NotImplementedError", "anchors": ["treecat/serving.py:DataServer.median", "treecat/serving.py:EnsembleServer.marginals"]}
{"id": "C39", "title": "DataServer.sample returns legal rows", "statement": "For a dataset produced by import_data, DataServer.sample returns N dicts and raises no assertion: each feature observed at least once in the table is present with a legal value of its type and range, features never observed are absent.", "quantifier": "every imported dataset, model, evidence and random outcome", "why_tests_cant": "one end-to-end example", "anchors": ["treecat/serving.py:DataServer.sample", "treecat/format.py:export_rows", "treecat/util.py:guess_counts"]}
{"id": "C40", "title": "feature_density is the fraction of rows observing the feature", "statement": "feature_density()[v] is the fraction of rows whose block v is not all zero, hence in [0,1].", "quantifier": "every table of nonnegative counts", "why_tests_cant": "only called, not checked", "anchors": ["treecat/serving.py:DataServer.feature_density"]}
{"id": "C41", "title": "Export inverts import", "statement": "For every schema and list of rows, import_rows followed by export_rows returns exactly the valid entries of each row (known feature, legal value), and export_rows followed by import_rows returns the same data for every data array produced by import.", "quantifier": "every schema with the documented ranges, every row", "why_tests_cant": "one data file is round-tripped; wide or degenerate ordinal ranges are not", "anchors": ["treecat/format.py:import_rows", "treecat/format.py:export_rows"]}
{"id": "C42", "title": "Invalid values are silently ignored", "statement": "import_rows ignores unknown features and invalid values without raising, as documented.", "quantifier": "every JSON value for every feature", "why_tests_cant": "tests contain only valid values", "anchors": ["treecat/format.py:import_rows"]}
{"id": "C43", "title": "CSV loading and row import agree", "statement": "load_data on a csv row and import_rows on the dict of the same normalized non-empty cells give the same internal row; rows shorter than the header are accepted; cells of unknown features are skipped.", "quantifier": "every schema, header and row", "why_tests_cant": "the two code paths are tested on one file", "anchors": ["treecat/format.py:load_data", "treecat/format.py:import_rows", "treecat/format.py:normalize_string"]}
{"id": "C44", "title": "normalize_string is idempotent", "statement": "Normalizing a string twice gives the same result as once; the result has no leading, trailing or repeated whitespace, no upper-case letter, and is never 'null' or 'none'.", "quantifier": "every ASCII string", "why_tests_cant": "untested", "anchors": ["treecat/format.py:normalize_string"]}
{"id": "C45", "title": "A guessed schema loads", "statement": "For every collection of csv files, the types and values written by guess_schema are accepted by load_schema (every value of a feature guessed ordinal parses as an integer in 0..20, every typed feature has at least two values), provided some feature was typed; a feature is left untyped iff fewer than two of its values occur at least twice.", "quantifier": "every dataset", "why_tests_cant": "one example file", "anchors": ["treecat/format.py:guess_schema", "treecat/format.py:guess_feature_type", "treecat/format.py:load_schema", "treecat/format.py:is_small_int"]}
{"id": "C46", "title": "guess_schema attributes each feature to the files containing it", "statement": "The source column written by guess_schema lists exactly the input files whose header contains the feature, in order.", "quantifier": "every list of input files", "why_tests_cant": "tested with a single input file", "anchors": ["treecat/format.py:guess_schema"]}
{"id": "C47", "title": "Structural priors from groups are loaded", "statement": "load_schema with a groups file sets the prior logit of the edge between each source and each target of a group to the group's logit, leaves all other edges at 0, and accepts every well-formed groups file.", "quantifier": "every groups file over the schema's features", "why_tests_cant": "the only test file has a header and no rows", "anchors": ["treecat/format.py:load_schema"]}
{"id": "C48", "title": "Schema layout matches feature dimensions", "statement": "load_schema gives every listed feature a block of width 2 (ordinal) or its number of values (categorical), blocks are disjoint and tile range(R), and feature_index points at the block of the feature.", "quantifier": "every pair of types/values files accepted", "why_tests_cant": "only loaded in tests", "anchors": ["treecat/format.py:load_schema"]}
{"id": "C49", "title": "Cross-validation folds partition the cells", "statement": "For fixed dataset shape and num_parts, every cell (row, feature) is held out by split_data for exactly one partid, whole feature blocks are held out together, training and evaluation of a part use the same mask, and held-out cells are all zero in the training data while all other cells are unchanged.", "quantifier": "every shape, number of parts and RNG", "why_tests_cant": "untested", "anchors": ["treecat/validate.py:split_data", "treecat/validate.py:train_task", "treecat/validate.py:process_eval_task", "treecat/util.py:make_ragged_mask"]}
{"id": "C50", "title": "Tuning grids are expanded completely and without collisions", "statement": "read_param_csv yields, for every non-comment row of the right length in order, num_parts configs with seeds 0..num_parts-1 that carry that row's values and the given options, and defaults elsewhere; different (row values, part) pairs get different model filenames.", "quantifier": "every parameter file and options", "why_tests_cant": "one file in tests", "anchors": ["treecat/validate.py:read_param_csv", "treecat/config.py:serialize_config"]}
{"id": "C51", "title": "Cached datasets are complete and match the request", "statement": "generate_dataset_file(rows, cols, cats, rate) returns the path of a complete dataset generated with exactly those arguments, also when an earlier run crashed at any point or used other arguments.", "quantifier": "every history of calls and crash points", "why_tests_cant": "crash points and argument histories are not tested", "anchors": ["treecat/generate.py:generate_dataset_file", "treecat/format.py:pickle_dump"]}
{"id": "C52", "title": "Estimated and sampled trees of a server are spanning trees", "statement": "Every server, single or ensemble, can be built from valid models. sample_tree(n) returns exactly n spanning trees of the features. The estimated tree of an ensemble is a spanning tree of maximal total edge logit, where the ensemble's logit of an edge is the mean of the members'.", "quantifier": "every non-empty list of valid models, every n and every random outcome", "why_tests_cant": "random trees, ties and ensembles of any size", "anchors": ["treecat/serving.py:EnsembleServer", "treecat/serving.py:TreeCatServer.sample_tree", "treecat/serving.py:ServerBase"]}
{"id": "C53", "title": "Exactly which schema files load", "statement": "load_schema without a groups file succeeds exactly when both files have the right headers (up to case), at least one row gives a type, every given type is categorical or ordinal, and every feature that ends up ordinal has at least one listed value, all of them integers.", "quantifier": "every pair of csv files", "why_tests_cant": "the boundary between accepted and rejected files is not tested", "anchors": ["treecat/format.py:load_schema"]}
{"id": "C54", "title": "DataServer.sample draws rows with the probabilities DataServer.logprob reports", "statement": "The rows of DataServer.sample(n) are independent and each row has the probability that DataServer.logprob reports for it (times the number of orders of an ordinal's stored observations); given evidence each row is drawn from the mean over the models of their conditional distributions.", "quantifier": "every imported dataset without repeated values, every ensemble of valid models, every evidence row and every n", "why_tests_cant": "a law over all random outcomes", "anchors": ["treecat/serving.py:DataServer.sample", "treecat/serving.py:DataServer.logprob", "treecat/format.py:export_rows", "treecat/format.py:import_rows"]}
{"id": "C55", "title": "The models of one tuning row hold out every cell exactly once", "statement": "For every row of a parameter file, the models that train and eval make for that row hold out every cell of the data exactly once between them, as n-fold crossvalidation should.", "quantifier": "every parameter file, options, dataset shape and random numbers", "why_tests_cant": "tests run one file and never compare masks", "anchors": ["treecat/validate.py:read_param_csv", "treecat/validate.py:train_task", "treecat/validate.py:process_eval_task", "treecat/config.py:DEFAULT_CONFIG"]}
{"id": "C56", "title": "Evaluation scores are what they claim", "statement": "process_eval_task reports as logprob the mean over the rows of the log of the conditional probability of the held-out cells given the others, and as l1_loss half the L1 distance between the medians given the training data and the held-out fully observed cells, divided by the number of compared entries plus 0.1.", "quantifier": "every consistent model, nonempty dataset with at most 127 observations per cell, and config", "why_tests_cant": "scores are real-valued functions of random masks and models", "anchors": ["treecat/validate.py:process_eval_task", "treecat/serving.py:TreeCatServer.logprob", "treecat/serving.py:TreeCatServer.median"]}
{"id": "C57", "title": "Generated trees are spanning trees", "statement": "generate_tree(num_cols) returns, for every num_cols >= 1 and every random outcome, a tree structure whose edges are a spanning tree of the columns.", "quantifier": "every number of columns, every random numbers and sampled edges", "why_tests_cant": "random trees of any size", "anchors": ["treecat/generate.py:generate_tree", "treecat/structure.py:sample_tree"]}
{"id": "C58", "title": "Fake models are consistent models of the dataset", "statement": "The suffstats of generate_fake_model are the counts of its random assignments over the rows of the dataset, for its random tree; they belong together, so that every property of servers holds of fake models and of every member of generate_fake_ensemble.", "quantifier": "every dataset of non-negative counts, every random tree, every assignments and at most 128 components", "why_tests_cant": "random statistics of any shape", "anchors": ["treecat/generate.py:generate_fake_model", "treecat/generate.py:generate_fake_ensemble"]}
{"id": "C59", "title": "Clean datasets are complete, uniform and reliable", "statement": "generate_clean_dataset(tree, num_rows, num_cats) has num_rows rows with exactly one observation of every feature; each category of each feature has probability 1/num_cats; a feature in latent class c shows category c with probability at least 200/201.", "quantifier": "every tree, number of rows and number of categories up to 128 and every random outcome", "why_tests_cant": "a law over random outcomes", "anchors": ["treecat/generate.py:generate_clean_dataset"]}
{"id": "C60", "title": "Generated datasets hold the counts that were drawn", "statement": "generate_dataset returns a well formed table of the requested shape in which every cell holds the multinomial counts drawn for it (modulo 256 into -128..127: exactly when no count exceeds 127).", "quantifier": "every shape and every sequence of draws", "why_tests_cant": "tests look at shapes only", "anchors": ["treecat/generate.py:generate_dataset", "treecat/tables.py:Table"]}
{"id": "C61", "title": "The structure of clean datasets is identifiable from pairwise agreement", "statement": "In the distribution that generate_clean_dataset samples from, two features at distance d in the tree have tied latent classes with probability (2/3)^d and independent ones otherwise. So with at least two categories nearer features agree strictly more often than farther ones, and estimate_tree applied to the agreement probabilities returns exactly the generating tree.", "quantifier": "every tree, every two features, every number of categories from 2 to 128", "why_tests_cant": "a statement about distributions over trees of any size and all pairs", "anchors": ["treecat/generate.py:generate_clean_dataset", "treecat/structure.py:estimate_tree"]}
{"id": "C62", "title": "Epochs leave the joint posterior of trees and classes invariant", "statement": "Full training epochs (resample the tree, then reassign every row) leave invariant the distribution over pairs of a spanning tree and a matrix of latent classes with mass exp(logprob + log prior of the tree): started from it, any number of epochs ends in it. Whatever is drawn, epochs raise nothing and end in such a pair.", "quantifier": "every table of non-negative counts, tree prior, number of clusters, number of epochs, tree and classes", "why_tests_cant": "a statement about the distribution over all trees and all assignments", "anchors": ["treecat/training.py:TreeTrainer.train", "treecat/training.py:TreeTrainer.sample_tree", "treecat/training.py:TreeTrainer.set_edges", "treecat/training.py:TreeCatTrainer.add_row", "treecat/training.py:TreeCatTrainer.remove_row", "treecat/training.py:TreeCatTrainer.logprob", "treecat/structure.py:sample_tree"]}
{"id": "C63", "title": "The training logprob weighs all trees and all patterns of missing cells alike", "statement": "Summed over all data with a given pattern of observed cells and over all latent classes, exp(logprob) is one constant that depends only on the shapes: not on the tree and not on which cells are missing. So logprob compares trees fairly, and with no cell observed the posterior of the trees is their prior.", "quantifier": "every shape of data (1 to 128 clusters, 1 to 2^15 features), every tree, every pattern of missing cells", "why_tests_cant": "a sum over all datasets and all assignments", "anchors": ["treecat/training.py:TreeCatTrainer.logprob"]}
{"id": "C64", "title": "Training and evaluating a parameter file fit together", "statement": "train handles exactly the configs that eval reads from the same parameter file and options, by increasing learning_init_epochs. After a run in which no task failed, in whatever order the tasks ran and whatever files were there, eval scores every config with the model trained for that config on the parts eval does not hold out. After any history of runs over one dataset, with tasks killed at any point, a config is either reported without scores or scored with its own model. eval reports each config once, without scores exactly when its file is missing or truncated, and prints the scored ones sorted.", "quantifier": "every parameter file, options, order of tasks, history of runs and point at which a task is killed", "why_tests_cant": "orders, crash points and histories are unbounded", "anchors": ["treecat/validate.py:train", "treecat/validate.py:train_task", "treecat/validate.py:process_train_task", "treecat/validate.py:eval", "treecat/validate.py:process_eval_task", "treecat/format.py:pickle_load"]}
{"id": "C65", "title": "Training converges to the joint posterior of trees and latent classes", "statement": "Give every tree and every assignment of latent classes the probability proportional to exp(logprob) times the prior of the tree. There is a rate rho < 1, fixed by the data, the prior and the number of clusters, such that after k full epochs from any state the trainer's tree and classes have this distribution up to rho^k in total variation; and a whole training run, annealed or not, ends with this distribution up to rho^learning_full_epochs (the classes, if the tree is finally estimated rather than sampled). A single sampling of the tree may turn any tree into any other.", "quantifier": "all tables of counts, priors, numbers of clusters, configs, starting states, sets of trees and classes and numbers of epochs", "why_tests_cant": "the limit of an exponentially large Markov chain cannot be observed; tests run a few epochs on small data", "anchors": ["treecat/training.py:TreeCatTrainer.train", "treecat/training.py:TreeTrainer.train", "treecat/training.py:TreeTrainer.sample_tree", "treecat/training.py:TreeCatTrainer.add_row", "treecat/structure.py:sample_tree"]}
{"id": "C66", "title": "Training in float32 draws only from usable weights", "statement": "Adding a row draws the row's classes from float32 weights that are finite, nonnegative, not near overflow and not all zero, after every history of calls and random numbers; so a class of positive weight is drawn and the statistics stay the counts over the added rows. (Shown when rows have few observations per feature; for ordinals with many levels the weights underflow to zero and class 0 is taken whatever is drawn.)", "quantifier": "all tables within the stated size, priors, numbers of clusters up to 128, histories of add_row, remove_row and set_edges, outputs of np.random.rand and orders of summation of np.dot", "why_tests_cant": "rounding errors and underflow depend on the whole history of float32 operations; tests look at a few small tables", "anchors": ["treecat/training.py:treecat_add_row", "treecat/training.py:treecat_add_cell", "treecat/training.py:treecat_remove_row", "treecat/training.py:TreeCatTrainer.add_row", "treecat/training.py:TreeCatTrainer.set_edges", "treecat/util.py:sample_from_probs"]}
{"id": "C67", "title": "Log probabilities in float32 are finite", "statement": "A server built from a trained model in float32 arithmetic returns a finite log probability for a row, never NaN or minus infinity, although the exact probability of every row is positive. (Shown when the row has few observations per feature, for any number of features; for ordinals with 128 levels the messages underflow and the result is not finite.)", "quantifier": "all consistent models with counts below the stated size, numbers of features and clusters, rows, and numerical libraries whose dot, sum, power and log are accurate to within a small factor", "why_tests_cant": "underflow depends on the product of many float32 factors along the tree; tests use small random data with few levels", "anchors": ["treecat/serving.py:TreeCatServer.__init__", "treecat/serving.py:TreeCatServer.logprob"]}
{"id": "C68", "title": "The workflow from csv files to a server succeeds", "statement": "Guessing a schema for csv files, importing them with it, training an ensemble on the dataset with admissible options and serving it, returns a server and raises nothing, provided every file has distinct columns and a row, some feature has two repeated values and no two repeated values of a feature are spellings of the same integer. The server serves the configured number of models, all rows of all files and exactly the features with two repeated values, and what it samples are full rows of legal values. If no feature has two repeated values, an exception is raised. The same holds for schemas written by hand, once the import succeeds and ordinal ranges fit.", "quantifier": "all lists of csv files, options, seeds, numbers of threads, orders of tasks and states of the random generators", "why_tests_cant": "the claim is about the composition of all commands on unbounded inputs and schedules; the end-to-end test runs one dataset", "anchors": ["treecat/__main__.py:train", "treecat/format.py:guess_schema", "treecat/format.py:import_data", "treecat/training.py:train_ensemble", "treecat/serving.py:serve_model", "treecat/serving.py:DataServer"]}
{"id": "C69", "title": "plot_circular shows the features and the trees", "statement": "For a served dataset, any iteration order of sets and any number of sampled trees, plot_circular draws the features evenly spaced around a circle, each branch of the estimated tree on consecutive places, each feature moved towards at most two of its neighbours in the tree; for steps below a quarter no two features coincide. Beside each feature is its name, as opaque as the feature is often observed, and its perplexities; the curves drawn are the edges of the estimated tree and, as opaque as they are frequent, those of the sampled trees. With more than one feature it never raises.", "quantifier": "all served datasets, set iteration orders, draws of the sampled trees, contraction steps below a quarter", "why_tests_cant": "orders, draws and datasets are unbounded; no test looks at what is drawn", "anchors": ["treecat/plotting.py:plot_circular", "treecat/plotting.py:contract_positions", "treecat/plotting.py:plot_chord"]}
{"id": "C70", "title": "plot_feature_overlap and nx_plot_tree show what their data are", "statement": "plot_feature_overlap shows for each pair of columns in how many rows both are present, the columns in some order: the clustering's with method cluster; with method tree one that keeps together the branches of a spanning tree of greatest overlap; it raises ValueError for any other method. nx_plot_tree draws one node for each feature, of a size proportional to its latent perplexity and at most node_size, and the edges of the estimated tree between the names.", "quantifier": "all tables, orders of iteration, methods; all served datasets", "why_tests_cant": "tables and trees are unbounded; no test looks at what is drawn", "anchors": ["treecat/plotting.py:plot_feature_overlap", "treecat/plotting.py:nx_plot_tree"]}
{"id": "C71", "title": "add_panning_to_svg wraps the drawing and touches no other file", "statement": "add_panning_to_svg replaces the opening tag of the drawing, adds the script before it and a group around it, and keeps all other lines in order. A file that already has the script is refused with ValueError and left alone. At no moment is a file other than the destination changed. A crash during the call leaves the drawing or its wrapped version.", "quantifier": "all contents of files, scripts, destinations and crash points", "why_tests_cant": "every prefix of the writes is a crash point and file contents are unbounded", "anchors": ["treecat/plotting.py:add_panning_to_svg"]}
{"id": "C72", "title": "Joining tables loses nothing and lets the first value win", "statement": "pd_outer_join returns a table whose columns are the union of those of the tables, sorted, and whose rows for a key are all combinations of the tables' rows with that key, with the first non-missing value in each column. If keys are distinct in each table there is exactly one row for each key that occurs in some table. A table without the column raises KeyError.", "quantifier": "all nonempty lists of tables with distinct columns and any rows, any order pandas gives to rows", "why_tests_cant": "the number of tables, columns, rows and repeated keys is unbounded; the unit test joins two tables", "anchors": ["treecat/format.py:pd_outer_join", "treecat/format.py:join_csvs"]}
{"id": "C73", "title": "The layout puts correlated features near each other", "statement": "Given a matrix of correlations of four or more features, any two of which are tied by a chain of positive correlations, layout_tree returns one position for each feature. Its coordinates are centered, of unit length and orthogonal to each other, and each minimizes the sum of correlation times squared distance among such. If features are not tied it raises AssertionError; with less than four features ValueError. What latent_correlation returns is such a matrix.", "quantifier": "all symmetric matrices with entries in [0,1], all results of eigh that are eigensystems in ascending order, all consistent models for the last part", "why_tests_cant": "the number of features and the correlations are unbounded reals; no unit test calls layout_tree", "anchors": ["treecat/plotting.py:layout_tree", "treecat/serving.py:TreeCatServer.latent_correlation"]}
{"id": "C74", "title": "Sampling in float32 draws from usable weights", "statement": "In the float32 arithmetic it runs in, every draw of TreeCatServer.sample is from weights that are finite, nonnegative and not all zero, nothing is raised, and each row drawn has the requested number of observations of every feature, with and without given data.", "quantifier": "all consistent models of any number of features, all rows of given data, all counts up to 127, all numbers np.random.rand may return", "why_tests_cant": "underflow depends on the product of all observed probabilities; a unit test checks some rows of small models", "anchors": ["treecat/serving.py:TreeCatServer.sample", "treecat/util.py:sample_from_probs2"]}
{"id": "C75", "title": "Marginals computed in float32 are probabilities", "statement": "In the float32 arithmetic it runs in, TreeCatServer.marginals raises nothing and returns for each feature finite positive numbers, at most one, that add up to one within 1/64, whatever data is given.", "quantifier": "all consistent models of any number of features and any tree, all rows of given data, all initial contents of uninitialised arrays", "why_tests_cant": "underflow depends on the product of messages along paths of the tree; a unit test checks some rows of small trees", "anchors": ["treecat/serving.py:TreeCatServer.marginals"]}
{"id": "C76", "title": "A schema that is refused names what is wrong with it", "statement": "load_schema without a groups file raises exactly the exception of the first of these checks that fails, and nothing if none fails: the types file has a header, with name and type as first columns; every listed type is a valid one; the values file has a header, with name and value as first columns; every value of an ordinal feature is an integer; some feature is listed; every ordinal feature has a value. Missing headers are StopIteration, missing columns IndexError, misnamed ones AssertionError, an ordinal without values IndexError, all else ValueError.", "quantifier": "all contents of the types file and of the values file", "why_tests_cant": "there are infinitely many malformed files and several faults may occur together; tests load well-formed ones", "anchors": ["treecat/format.py:load_schema"]}
{"id": "C77", "title": "Log probabilities computed in float32 are accurate", "statement": "The float32 number TreeCatServer.logprob returns for a row differs from the natural logarithm of the probability of the row by no more than the rounding of one pass over the data: an error proportional to the number of features, categories and observations, whatever the values are.", "quantifier": "all consistent models of any number of features and any tree, all rows of counts, all numerical libraries with a given accuracy", "why_tests_cant": "the error of one message is multiplied through a tree of any shape, and cancels or not depending on all other messages; a unit test compares some rows of small trees", "anchors": ["treecat/serving.py:TreeCatServer.logprob", "treecat/serving.py:TreeCatServer.__init__"]}
{"id": "C78", "title": "Profiling statistics add up", "statement": "Recording statistics does not change what tree sampling returns. After any history of sample_tree calls the counters, the series of accepted moves and the histogram of choices agree with the calls and with each other, the accepted moves recorded for a call are at least the edges that are new in its result and none if the tree has not changed, and no proposal is infeasible when all logits are finite. After any nested calls of profiled functions, raising or not, each timer has counted the calls of its function and shows the sum of their durations.", "quantifier": "all histories of calls with any trees, logits and random draws; all nestings of profiled calls at any times", "why_tests_cant": "the statistics are accumulated over whole runs with random draws; no test checks them", "anchors": ["treecat/structure.py:sample_tree", "treecat/util.py:get_profiling_stats", "treecat/util.py:ProfileTimer", "treecat/util.py:profile_timed"]}
{"id": "C79", "title": "Profiling commands run to the end", "statement": "Unless a process was killed while it wrote a file, the commands of profile.py run without raising for any numbers of rows and columns, any history of earlier calls and any random draws: train trains one model of the clusters asked for on a dataset of the size asked for, serve returns legal samples with their log probabilities, medians and correlations, eval scores all four models in whatever order they are trained. An unknown tool is refused with ValueError. After a killed write train and eval fail until the files are cleaned.", "quantifier": "all histories of the cached files, sizes, draws, training orders and tools", "why_tests_cant": "they depend on the files earlier runs left, on killed processes and on random draws; tests run one size once from a clean state", "anchors": ["treecat/profile.py:train", "treecat/profile.py:serve", "treecat/profile.py:eval", "treecat/profile.py:run_with_tool", "treecat/profile.py:train_files", "treecat/profile.py:serve_files"]}
{"id": "C80", "title": "Float32 samples follow the model", "statement": "The rows sample draws, with the tables and messages it computes in float32, have the probabilities the model gives them: the chance of drawing any particular rows is that of the conditional distribution given the observed cells, up to a factor exp(e), where e grows with the number of rows, features, cells and observations and with the rounding error of the numerical libraries, not with how small the probabilities are.", "quantifier": "all models with counts below 2^16, evidence rows, numbers of rows and of observations drawn, and numerical libraries of the stated accuracy", "why_tests_cant": "it is about rounding errors of every table entry and message of every model, and about probabilities of outcomes; a test draws some samples of one model and compares frequencies", "anchors": ["treecat/serving.py:TreeCatServer.sample", "treecat/serving.py:TreeCatServer.__init__", "treecat/util.py:sample_from_probs2", "treecat/util.py:sample_from_probs"]}
{"id": "C81", "title": "Samples follow the model with the numbers the generator really gives", "statement": "A draw from float32 weights compares a multiple of 2^-53 with cumulative sums rounded to float32; over all numbers the generator can give, entry i comes out with its share of the weights, up to an error of 2^-21 per weight in all. So a program that makes D draws from at most B weights lands in any set of results with the probability exact draws would give, up to D*B*2^-21, and the rows sample returns are in any set of rows with the probability the model gives that set, up to that and the rounding error of C80.", "quantifier": "all weight vectors one can draw from, all programs making such draws, and all models, evidence rows, numbers of rows and of observations of C80, over all outputs of the generator", "why_tests_cant": "the claim counts the outcomes of all 2^53 outputs of the generator at every draw, for every weight vector; a test draws a few thousand numbers", "anchors": ["treecat/util.py:sample_from_probs", "treecat/util.py:sample_from_probs2", "treecat/serving.py:TreeCatServer.sample"]}
{"id": "C82", "title": "Training draws the classes of a row from their conditional distribution in float32", "statement": "After any history of adding rows, removing rows and changing the tree, adding a row gives it a vector of classes with the probability of that vector given the classes of all other rows, up to a relative error that grows with the number of features and of observations per feature only, although all messages are float32 numbers and the edge table is updated in float32 in place. With the numbers the random generator really gives the classes are in any set with the probability of that set, up to that error and 2^-21 for every feature and class.", "quantifier": "all tables, all numbers of classes up to 128, all histories of calls and random numbers, all rows not yet added and all vectors of classes, within the stated bounds on counts, observations and neighbours", "why_tests_cant": "the claim is about the probability of every vector of classes after every history, with a bound on all rounding errors; a test sees a few draws of a few histories", "anchors": ["treecat/training.py:treecat_add_row", "treecat/training.py:treecat_add_cell", "treecat/training.py:TreeCatTrainer.add_row", "treecat/util.py:sample_from_probs"]}
{"id": "C83", "title": "The float32 table of edge probabilities follows the counts", "statement": "The trainer keeps a float32 table of edge counts plus a prior and adds or subtracts 1 in place. After any history every entry is a number and is the count plus the prior 1/(2M) up to a relative error M*2^(A-21), whatever the number of rows added and removed; with a power of two classes it is exact. With three classes it is not: adding a row and removing it restores every count but not the table.", "quantifier": "all tables, all numbers of classes up to 128, all histories of calls and random numbers, all entries, within the stated bounds on counts", "why_tests_cant": "errors of one addition are tiny and could add up over a long history; only an invariant shows that they do not", "anchors": ["treecat/training.py:treecat_add_row", "treecat/training.py:treecat_remove_row", "treecat/training.py:TreeCatTrainer.set_edges"]}
{"id": "C84", "title": "Tree moves in float32 keep the posterior distribution over trees", "statement": "Resampling the tree computes the weights of the candidate edges in float32 and draws with the numbers the random generator gives. For every tree and all float32 logits it raises nothing and returns a spanning tree, and the probability of every set of trees, over all orders of the edges and all outputs of the generator, is that of the exact sampler up to an error proportional to the number of edges times the number of pairs of features. So the posterior distribution over trees is kept up to that error.", "quantifier": "all numbers of features up to 362, all trees, all logits that are float32 numbers up to 2^126 or minus infinity, all orders, all outputs of the generator and all sets of trees", "why_tests_cant": "the claim is about the probability of every tree with a bound on all rounding errors; a test sees a few draws", "anchors": ["treecat/structure.py:sample_tree", "treecat/util.py:sample_from_probs"]}
{"id": "C85", "title": "Edge logits in float32 are close to the exact scores, and tree resampling during training follows them", "statement": "During training the logits of all pairs of features are computed in float32 from a table of float32 values of log-gamma. After every history of calls nothing is raised, no table is read out of bounds, and each logit is the log marginal likelihood ratio of its pair, counted from the added rows, plus the tree prior, up to a stated error; a prior of minus infinity gives minus infinity. Resampling the tree then returns a spanning tree, raises nothing and keeps the posterior distribution over trees given the classes up to a stated error.", "quantifier": "all tables, numbers of classes up to 128, histories of calls, tree priors, library functions within the stated accuracy, orders of the edges, outputs of the generator and sets of trees, within the bounds of C66", "why_tests_cant": "the claim bounds the rounding errors of every logit and the probability of every tree; a test sees a few tables and a few draws", "anchors": ["treecat/training.py:TreeCatTrainer.compute_edge_logits", "treecat/training.py:treecat_compute_edge_logit", "treecat/training.py:logprob_dc", "treecat/training.py:TreeTrainer.sample_tree"]}
{"id": "C86", "title": "The tree estimated from float32 logits is nearly the best tree", "statement": "estimate_tree on float32 edge logits, each a number up to 2^60 or minus infinity: if some spanning tree avoids the pairs with minus infinity, nothing is raised and the result is a sorted spanning tree that avoids them too. The sum of its logits is at most the rounding of the weights below the largest sum of any such tree.", "quantifier": "all numbers of features, float32 logits up to 2^60 or minus infinity that leave some tree, minimum spanning tree routines meeting the contract, and spanning trees compared with", "why_tests_cant": "the claim compares the result with every spanning tree in exact arithmetic; a test compares a few small graphs and the same rounded weights", "anchors": ["treecat/structure.py:estimate_tree", "treecat/structure.py:triangular_to_square"]}
{"id": "C87", "title": "A whole training run in float32 ends in a valid model with nearly the best tree", "statement": "For every table within the bounds of C66, config, float32 tree prior that allows some tree and output of the generators, train raises nothing and reads no array out of bounds. It ends with a spanning tree, a class for every cell and the sufficient statistics counted from scratch. Every returned edge logit is the exact log marginal likelihood ratio plus the prior up to a stated error, and an estimated tree has nearly the largest exact score of all allowed trees.", "quantifier": "all tables, configs, tree priors, library functions within the stated accuracy, outputs of the generators, and trees compared with, within the bounds of C66", "why_tests_cant": "the claim ranges over all random outcomes of a run and composes the rounding errors of all its stages; a test sees one seed", "anchors": ["treecat/training.py:TreeTrainer.train", "treecat/training.py:TreeTrainer.estimate_tree", "treecat/training.py:TreeTrainer.sample_tree", "treecat/training.py:TreeCatTrainer"]}
{"id": "C88", "title": "Training in float32 draws the tree and the classes from nearly the joint posterior", "statement": "Full epochs of training computed in float32 bring the tree and the class assignment towards the posterior distribution given by logprob and the tree prior. After k epochs from any full reachable state, and at the end of train, the probability of every event differs from its posterior probability by at most a geometrically vanishing term plus the rounding error. The rounding error is at most k times that of one epoch and bounded however long the run is.", "quantifier": "all tables, tree priors, clusters, events, numbers of epochs, reachable states and configs within the stated bounds, and all library functions within the stated accuracy", "why_tests_cant": "the claim is about the distribution of the result over all random outputs and about runs of any length; a test compares histograms of a few seeds on one table", "anchors": ["treecat/training.py:TreeTrainer.train", "treecat/training.py:TreeTrainer.sample_tree", "treecat/training.py:TreeCatTrainer.add_row", "treecat/training.py:TreeCatTrainer.remove_row", "treecat/structure.py:sample_tree"]}
{"id": "C89", "title": "An ensemble's log probabilities in float32 are accurate", "statement": "The log probability that an ensemble computes in float32 for a row of data is finite and close to the logarithm of the mean over the members of the exact row probability. The members' own errors do not add up; combining them adds a stated error.", "quantifier": "all ensembles, rows and library functions within the stated bounds", "why_tests_cant": "the claim bounds rounding errors for every ensemble, row and accurate math library; a test compares a few rows with a loose tolerance", "anchors": ["treecat/serving.py:EnsembleServer.logprob", "treecat/serving.py:TreeCatServer.logprob"]}
{"id": "C90", "title": "An ensemble's edge logits and estimated tree in float32 are nearly exact", "statement": "The edge logits an ensemble serves, computed in float32, are the means of the members' edge logits up to a stated rounding error, and minus infinity exactly for the pairs of features some member excludes. The tree it estimates is a sorted spanning tree that no member excludes, and its mean total logit is within a stated error of the largest. If the members exclude every tree between them, building the server raises an AssertionError.", "quantifier": "all ensembles of up to 2^16 members whose edge logits are bounded or minus infinity", "why_tests_cant": "the claim quantifies over all logits and all spanning trees; a test looks at one ensemble and cannot enumerate the trees", "anchors": ["treecat/serving.py:EnsembleServer.__init__", "treecat/serving.py:EnsembleServer.edge_logits", "treecat/serving.py:EnsembleServer.estimate_tree", "treecat/structure.py:estimate_tree"]}
{"id": "C91", "title": "An ensemble samples from its members in equal shares although its weights are rounded", "statement": "With float32 weights, which are not exactly equal and may sum to more than 1, sampling from an ensemble is never rejected by numpy. The numbers of samples of the members, and the sampled rows, have the probabilities they have with equal weights up to a stated error for each sample. sample_tree returns as many spanning trees as were asked for, whatever is drawn.", "quantifier": "all ensembles of up to 2^23 members, numbers of samples, evidence, rows and draws", "why_tests_cant": "the claim is about probabilities and about every ensemble size; whether the rounded weights are rejected depends on the size", "anchors": ["treecat/serving.py:EnsembleServer.sample", "treecat/serving.py:EnsembleServer.sample_tree"]}
{"id": "C92", "title": "join_csvs writes the outer join of its files, in one step or in several", "statement": "join_csvs writes a csv file that reads back as the outer join of the given files, with the column of the join first, and changes no other file. Joining some of the files first, and then the result with the others, makes the same table as joining all of them at once, up to the order of the rows, also where keys repeat and values are missing. A join that was stopped while writing can be run again, if it does not write to one of its own files.", "quantifier": "all files whose names have no comma and whose columns do not end in _JOIN_, all splits into two steps, all orders of the rows", "why_tests_cant": "the claim relates any two ways to join any number of files; the test joins two small tables in memory", "anchors": ["treecat/format.py:join_csvs", "treecat/format.py:read_csv", "treecat/format.py:pd_outer_join"]}
{"id": "C93", "title": "A table is read-only", "statement": "After a Table is made, no history of writes, views, copies and further tables, through the table's arrays or the arrays it was made from, changes its feature types, ragged index, data or categorical data; its arrays reject writes.", "quantifier": "all arrays with any dtypes and any sharing of memory, and all later histories of operations on arrays", "why_tests_cant": "the claim is about all later histories and all ways in which arrays share memory", "anchors": ["treecat/tables.py:Table.__init__", "treecat/tables.py:Table.data", "treecat/tables.py:Table.categorical_data"]}
{"id": "C94", "title": "np_printoptions restores the print options", "statement": "After a with statement with np_printoptions, numpy's print options are what they were before it, whatever the body does with them and however it ends.", "quantifier": "all options, arguments and bodies, including nested with statements and exceptions", "why_tests_cant": "the claim is about every body and every exception; no test looks at the options afterwards", "anchors": ["treecat/util.py:np_printoptions"]}
{"id": "C95", "title": "Saved data are read back", "statement": "What pickle_dump has saved under a name ending in .pkz or .jz, pickle_load reads back after any later calls for other names and of fingerprint, whether they raise or not; other names raise ValueError and nothing is written; a call that raises changes no file. cat prints the contents of .pkz files in order and stops with an AssertionError at another name. Two objects have the same fingerprint exactly if they are equal.", "quantifier": "all values, names, disks and later histories of calls, for all codecs that invert each other and values on which sha1 does not collide", "why_tests_cant": "the claim is about all histories of calls and about failing calls; the test saves one value and loads it", "anchors": ["treecat/format.py:pickle_dump", "treecat/format.py:pickle_load", "treecat/format.py:fingerprint", "treecat/format.py:cat"]}
