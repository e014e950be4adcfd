[
 {
  "property": "C01",
  "status": "proved",
  "theorems": [
   "C01_enumeration",
   "C01_increment",
   "C01_end_not_incrementable"
  ],
  "note": "every list of positive sizes"
 },
 {
  "property": "C02",
  "status": "proved",
  "theorems": [
   "C02_index_bijection"
  ],
  "note": ""
 },
 {
  "property": "C03",
  "status": "proved",
  "theorems": [
   "C03_total_map",
   "C03_new_factor"
  ],
  "note": "every history of set and clear on every factor the API can build"
 },
 {
  "property": "C04",
  "status": "proved",
  "theorems": [
   "C04_invalid_set"
  ],
  "note": "a rejected call leaves the factor unchanged because set returns the new factor only on success; C03_total_map uses it"
 },
 {
  "property": "C05",
  "status": "proved",
  "theorems": [
   "C05_nonnull_enumeration",
   "C05_nonnull_enumeration_transformed"
  ],
  "note": ""
 },
 {
  "property": "C06",
  "status": "proved",
  "theorems": [
   "C06_correlated",
   "C06_anticorrelated"
  ],
  "note": ""
 },
 {
  "property": "C07",
  "status": "proved",
  "theorems": [
   "C07_merge",
   "C07_values_exist",
   "C07_merge_throws"
  ],
  "note": "for every iteration order of the set of variables"
 },
 {
  "property": "C08",
  "status": "proved",
  "theorems": [
   "C08_permuted_clone"
  ],
  "note": ""
 },
 {
  "property": "C09",
  "status": "proved",
  "theorems": [
   "C09_finder"
  ],
  "note": ""
 },
 {
  "property": "C10",
  "status": "proved",
  "theorems": [
   "C10_exponential",
   "C10_set_weight",
   "C10_copy",
   "C10_factor_copies"
  ],
  "note": "exp is any function with positive values"
 },
 {
  "property": "C11",
  "status": "proved",
  "theorems": [
   "C11_probabilities"
  ],
  "note": ""
 },
 {
  "property": "C12",
  "status": "proved",
  "theorems": [
   "C12_group_construction",
   "C12_group_add",
   "C12_group_variadic",
   "C12_group_invariant",
   "C12_unique_names_refuted"
  ],
  "note": "uniqueness is of the pair name, size; uniqueness of the names alone is refuted"
 },
 {
  "property": "C13",
  "status": "partial",
  "theorems": [
   "C13_replace_success",
   "C13_replace_safe_partial",
   "C13_replace_no_ub_refuted"
  ],
  "note": "a longer replacement list reads out of bounds: refuted"
 },
 {
  "property": "C14",
  "status": "proved",
  "theorems": [
   "C14_set_difference",
   "C14_no_repetition"
  ],
  "note": ""
 },
 {
  "property": "C15",
  "status": "proved",
  "theorems": [
   "C15_evidence",
   "C15_indicator"
  ],
  "note": "evidence reads the binary factor at the observed value, whichever position the evidence has"
 },
 {
  "property": "C16",
  "status": "partial",
  "theorems": [
   "C16_message_contents",
   "C16_message_symmetric_partial",
   "C16_message_refuted",
   "C16_message_sizes_refuted"
  ],
  "note": "the code reads the binary factor with swapped arguments: the stated equation holds for symmetric factors on equal sizes and is refuted in general"
 },
 {
  "property": "C17",
  "status": "proved",
  "theorems": [
   "C17_merged_unaries",
   "C17_other_variables"
  ],
  "note": "a product that is identically zero gives NaN in the code and the Nan outcome in the model"
 },
 {
  "property": "C18",
  "status": "partial",
  "theorems": [
   "C18_partition_partial",
   "C18_variables_stay",
   "C18_partition_refuted"
  ],
  "note": "all histories in which removeEvidences is not called with a variable that has no evidence; in that case the code leaves a variable neither hidden nor observed: refuted"
 },
 {
  "property": "C19",
  "status": "partial",
  "theorems": [
   "C19_clusters_partial"
  ],
  "note": "same condition on the histories as C18"
 },
 {
  "property": "C20",
  "status": "partial",
  "theorems": [
   "C20_evidences_partial",
   "C20_set_evidence_partial",
   "C20_remove_evidence_partial",
   "C20_remove_all_partial",
   "C20_set_evidence_refuted"
  ],
  "note": "same condition on the histories as C18; without it setEvidence has undefined behaviour: refuted"
 },
 {
  "property": "C21",
  "status": "partial",
  "theorems": [
   "C21_insertion_partial",
   "C21_atomic_refuted"
  ],
  "note": "the conditions are proved exact; a failed insertion can leave one new variable in the model: refuted; same condition on the histories as C18"
 },
 {
  "property": "C22",
  "status": "partial",
  "theorems": [
   "C22_exact_marginals_partial",
   "C22_exact_marginals_by_name_partial",
   "C22_transposed_marginals",
   "C22_distribution",
   "C22_exact_marginals_refuted"
  ],
  "note": "proved for factors symmetric between hidden variables, along histories with no removal of an evidence next to a variable that stays observed; for the other factors the code reads the factor with its arguments exchanged (refuted, and what is computed is proved); exact arithmetic"
 },
 {
  "property": "C23",
  "status": "partial",
  "theorems": [
   "C23_exact_map_partial",
   "C23_hidden_set_map_partial",
   "C23_exact_map_refuted",
   "C23_small_values_refuted"
  ],
  "note": "same conditions as C22 and values not below FLT_MIN, both necessary (refuted without)"
 },
 {
  "property": "C24",
  "status": "partial",
  "theorems": [
   "C24_joint_partial",
   "C24_joint_probabilities_partial",
   "C24_joint_by_names_partial",
   "C24_unknown_name",
   "C24_unknown_variable",
   "C24_detached_group_refuted",
   "C24_asymmetric_refuted",
   "C24_two_observed_refuted"
  ],
  "note": "proved for factors symmetric between hidden variables and groups with at most one observed variable whose linked hidden variables are linked inside the group; each condition is necessary (refuted without it; with two observed variables the code reads a dangling pointer); exact arithmetic"
 },
 {
  "property": "C25",
  "status": "partial",
  "theorems": [
   "C25_observed_marginal_partial",
   "C25_observed_map_partial",
   "C25_observed_marginal_refuted"
  ],
  "note": "proved when the factors between hidden variables join variables of equal sizes; undefined behaviour otherwise: refuted"
 },
 {
  "property": "C26",
  "status": "partial",
  "theorems": [
   "C26_queries_keep_the_model",
   "C26_repeated_query_partial",
   "C26_interleaved_queries_partial",
   "C26_interleaved_answers_partial",
   "C26_float_repeated_query_partial"
  ],
  "note": "the model is kept by every query, the same query is repeated identically in every state; with other queries in between: on trees whatever the numbers of threads and orders, on every graph when the numbers of threads are all 1 or all above 1, the order of the containers is the same and the first query does its propagation. The first two hold for every arithmetic (floats included)"
 },
 {
  "property": "C27",
  "status": "partial",
  "theorems": [
   "C27_same_answers_partial",
   "C27_same_marginal_partial",
   "C27_same_map_partial",
   "C48_restored_marginals_refuted",
   "C27_loop_order_refuted"
  ],
  "note": "proved on trees along the histories of C22; refuted when an evidence is removed next to a variable that stays observed; on graphs with cycles the answers depend on the order of the hash containers (refuted)"
 },
 {
  "property": "C28",
  "status": "partial",
  "theorems": [
   "C28_tree_detection_partial",
   "C28_propagation_reported_partial"
  ],
  "note": "along the histories of C22 (factors of any values, any cycles)"
 },
 {
  "property": "C29",
  "status": "proved",
  "theorems": [
   "C29_calls_terminate",
   "C29_messages_computed",
   "C29_field_calls_terminate",
   "C29_samples_terminate",
   "C29_conditional_construction_terminates",
   "C29_conditional_calls_terminate",
   "C29_trainings_terminate",
   "C29_conditional_trainings_terminate"
  ],
  "note": "every call of the API after every history terminates, on graphs, random fields (insertions, weights, gradients, samples, trainings) and conditional random fields (construction, evidences, gradients, train sets under floorf of a percentage not above the argument, trainings); messages computed by a propagation counted on the reachable states without failed removals"
 },
 {
  "property": "C30",
  "status": "proved",
  "theorems": [
   "C30_batches",
   "C30_one_thread",
   "C30_cluster_messages"
  ],
  "note": "every list of different messages; the third theorem gives the hypothesis for the clusters of reachable models"
 },
 {
  "property": "C31",
  "status": "partial",
  "theorems": [
   "C31_exactly_once_partial",
   "C31_returns_after_all_partial",
   "C31_memory_partial",
   "C31_no_deadlock_partial",
   "C31_quiet_startup",
   "C31_single_thread",
   "C31_startup_refuted"
  ],
  "note": "sequentially consistent interleavings that do not read the uninitialised pointer of a worker during the construction of the pool; that read is possible (refuted), and impossible when the constructor is not interleaved with the workers"
 },
 {
  "property": "C32",
  "status": "partial",
  "theorems": [
   "C32_same_answer",
   "C32_ready_independent",
   "C32_pool_tree_messages_partial",
   "C32_pool_loopy_messages_partial",
   "C32_sampling_batches",
   "C32_sampling_schedules_partial",
   "C32_samples_schedules_partial",
   "C32_gradient_schedules_partial",
   "C32_conditional_alphas_partial",
   "C32_conditional_betas_partial"
  ],
  "note": "messages, samples and gradients (of random fields and of conditional random fields): every interleaving of the accesses of the threads and every order of the tasks of the batches; executions as in C31 (no read of the uninitialised pointer)"
 },
 {
  "property": "C33",
  "status": "partial",
  "theorems": [
   "C33_zero_threads_partial",
   "C33_unusable",
   "C33_usable_refuted",
   "C33_zero_threads_refuted"
  ],
  "note": "throws when a propagation is needed, then the pool is gone and the next query is undefined behaviour; accepted when no propagation is needed"
 },
 {
  "property": "C34",
  "status": "proved",
  "theorems": [
   "C34_samples",
   "C34_samples_any_numbers",
   "C34_field_samples_any_numbers",
   "C34_conditional_samples_any_numbers",
   "C34_float_samples"
  ],
  "note": "every history, every sequence of numbers drawn, every number of threads, when some assignment has a non null weight and no call with 0 threads came before; the _any_numbers theorems (graphs, random fields, conditional fields) ask for no law of the arithmetic and no condition on the weights: the call returns as many samples as asked, in range and equal to the evidences, or stops at 0/0; with IEEE 754 floats it always returns"
 },
 {
  "property": "C35",
  "status": "partial",
  "theorems": [
   "C35_first_index",
   "C35_interval",
   "C35_not_null_partial",
   "C35_null_refuted"
  ],
  "note": "an index with a null probability is drawn when the number 0 is drawn: refuted, and excluded by the guarded theorem"
 },
 {
  "property": "C36",
  "status": "proved",
  "theorems": [
   "C36_chain",
   "C36_conditional",
   "C36_distribution"
  ],
  "note": "also models with loops; when all the values of a variable have a null weight given the others, the last value is taken (part of the specification redraw)"
 },
 {
  "property": "C37",
  "status": "proved",
  "theorems": [
   "C37_weights",
   "C37_set_weights",
   "C37_wrong_size",
   "C37_ones"
  ],
  "note": "for every history of calls on a random field (insertions, shared groups, copies, weights, gradients, evidences, queries): one weight per cluster, equal for all its factors; setWeights then getWeights gives the same vector and the images are exp(weight * value); wrong sizes are rejected without effect"
 },
 {
  "property": "C38",
  "status": "partial",
  "theorems": [
   "C38_failed_insertion_refuted",
   "C38_unknown_group",
   "C38_known_group"
  ],
  "note": "the second half of the property is false of the code: the call throws after the factor is inserted, so the factor stays in the model without a weight (refuted with a witness, and described for every model); the successful insertions are characterised"
 },
 {
  "property": "C39",
  "status": "partial",
  "theorems": [
   "C39_gradient_formula_partial",
   "C39_weights_set",
   "C39_gradient_is_derivative_partial",
   "C39_asymmetric_refuted",
   "C39_stale_weights_refuted"
  ],
  "note": "Proved, for every history of calls, every training set and number of threads: in a random field without cycles whose factors between two variables are symmetric, the k-th component of getWeightsGradient is the mean on the training set of the sum of the values of the factors of the k-th cluster minus its mean under the distribution of the model without evidences; over the real numbers, with exp, this is the derivative of the mean logarithm of the probability of the combinations with respect to the k-th weight. The histories exclude calls of setWeights made while a tunable factor is unary or touches an observed variable (refuted: C39_stale_weights_refuted, the gradient is then the one of the old weights); factors that are not symmetric are refuted as well (C39_asymmetric_refuted). The call also removes the evidences of the model, which the theorem states. Missing: models with cycles, where the code is approximate. The derivative theorem uses the axioms of the standard library's real numbers."
 },
 {
  "property": "C40",
  "status": "partial",
  "theorems": [
   "C40_sets_partial",
   "C40_same_order",
   "C40_wrong_size",
   "C40_wrong_value",
   "C40_observed",
   "C40_order_refuted"
  ],
  "note": "the values go to the variables in the order of getEvidences(); the order of getObservedVariables(), which is documented, is that of another hash container: refuted when the two orders differ, proved when they agree"
 },
 {
  "property": "C41",
  "status": "partial",
  "theorems": [
   "C41_all_combinations_partial",
   "C41_some_combinations_partial",
   "C41_percentage",
   "C41_small_percentage",
   "C41_division_refuted",
   "C41_order_refuted"
  ],
  "note": "the combinations visited, never past the end of the range, when percentage * number of combinations is at least 1; division by zero otherwise; the call throws when the two hash containers have different orders and the sizes differ"
 },
 {
  "property": "C42",
  "status": "proved",
  "theorems": [
   "C42_train_set",
   "C42_iterator"
  ],
  "note": "floorf is any function that rounds down, rand any sequence"
 },
 {
  "property": "C43",
  "status": "partial",
  "theorems": [
   "C43_import_refuted",
   "C43_only_zeros",
   "C43_zeros",
   "C43_single_column",
   "C43_different_sizes",
   "C43_final_newline"
  ],
  "note": "The property is false of the code for every file: no file describing combinations is read as them (C43_import_refuted). What the code does is proved: the combinations returned are made of zeros and the last column is dropped; files with one column or with lines of different sizes throw; a final newline is undefined behaviour."
 },
 {
  "property": "C44",
  "status": "partial",
  "theorems": [
   "C44_import_partial",
   "C44_blank_line_refuted",
   "C44_empty_file",
   "C44_negative"
  ],
  "note": "Proved for every text without blank lines and without final newline whose values fit an int, also when a row is rejected. With a final newline, a blank line or an empty file the behaviour is undefined (refuted for all of them). std::atof is an arbitrary function; a file that cannot be opened is not modelled."
 },
 {
  "property": "C45",
  "status": "partial",
  "theorems": [
   "C45_field_partial",
   "C45_graph_partial",
   "C45_distribution",
   "C45_names_refuted",
   "C45_quotes_refuted",
   "C45_decimals_refuted",
   "C45_lone_variable_refuted",
   "C45_unlisted_refuted",
   "C45_sharing_refuted",
   "C45_conditional_partial",
   "C45_conditional_distribution",
   "C45_conditional_again_partial",
   "C45_answers_partial",
   "C45_conditional_answers_partial",
   "C45_training_set_refuted",
   "C45_gradient_partial",
   "C45_training_partial",
   "C45_conditional_gradient_partial",
   "C45_conditional_training_partial"
  ],
  "note": "For every random field or graph reached with careful calls, every order of the sets, every heap and every pair to_string/atof that reads zero as zero and keeps non negative numbers non negative: the export returns, its import into an empty model returns, and the imported model has variables of the same names and sizes, the same evidences, the same factors with weights and images printed and read, the same clusters; when no value is changed by the printing, the same distribution. Conditions, each shown necessary by a refutation: distinct names, names without quotes/backslashes/control characters, no variable without factors, every factor listed, unambiguous sharing; and values below the printed precision are read as zero. Missing: the text of the file (nlohmann::json); sources reached by failed removeEvidences. The import into a non empty model: C59, C61. Conditional random fields, in any state their calls reach: C45_conditional_partial (read as a random field with the same contents, clusters and weights), C45_conditional_distribution (with the same marginals when the printing changes no value), C45_conditional_again_partial (the conditional random field built from what is read has the contents and the weights of the one exported). C45_answers_partial: what the user sees of it: the marginals, the most probable values and the joint distributions (up to a positive constant) asked by name to the model that is read are those the source returns, for any orders of the sets and any numbers of threads, for variables on trees of symmetric factors and values the printing does not change. C45_conditional_answers_partial: the random field read from the file of a conditional random field, and the conditional random field built from it, return the same marginals, most probable values and joint distributions as the one exported. C45_training_set_refuted: the model read back may list its variables in another order (constant factors are written first), so a training set made for the exported model can give another gradient, while the set with its columns reordered gives the same one. C45_gradient_partial: for every training set with its columns reordered by the names of the variables, the gradient of the model read is that of the exported one, for trees of symmetric factors and values the printing does not change. C45_training_partial: every trainer, with the same draws, leaves the same weights in the two models, or fails on both. Missing there: cycles, values changed by the printing. C45_conditional_gradient_partial, C45_conditional_training_partial: the same for the conditional random field built from what is read of the file of a conditional random field, with the positions of the observed variables in the order of the map, as in C51."
 },
 {
  "property": "C46",
  "status": "partial",
  "theorems": [
   "C46_field_partial",
   "C46_graph_partial",
   "C46_distribution",
   "C46_answers_partial",
   "C46_independent",
   "C46_shared_refuted",
   "C46_lone_variable_refuted",
   "C46_unlisted_refuted",
   "C46_sharing_refuted",
   "C46_conditional_unobserved",
   "C46_conditional_throws_partial",
   "C46_conditional_partial",
   "C46_conditional_distribution_partial",
   "C46_conditional_names_refuted",
   "C46_map_answers_partial",
   "C46_joint_answers_partial",
   "C46_conditional_answers_partial",
   "C46_training_set_refuted",
   "C46_gradient_partial",
   "C46_training_partial",
   "C46_conditional_gradient_partial",
   "C46_conditional_training_partial"
  ],
  "note": "The copy of every random field (or graph) reached with careful calls has the same variables, evidences, factors, clusters, weights, hence the same distribution, and the copy of a tree of symmetric factors answers with the marginals of the source; a copy with its own factors is independent. Conditions, each shown necessary by a refutation: no variable without factors, every factor listed, unambiguous sharing. Independence is false of the copy constructors, which share the factors. Missing: sources reached by failed removeEvidences or by setWeights with tunable unary or observed factors. Conditional random fields (made from a field, or copied): C46_conditional_partial gives the same contents, clusters and weights, C46_conditional_distribution_partial the same distribution, when the variables have different names; the construction throws without evidences (C46_conditional_unobserved) and when a tunable factor has only observed variables (C46_conditional_throws_partial). With two variables of the same name the evidence may go to the other one: C46_conditional_names_refuted. C46_map_answers_partial, C46_joint_answers_partial: the most probable values and the joint distributions a copy answers are those of the source, under the conditions of C46_answers_partial. C46_conditional_answers_partial: a conditional random field made from a random field or copied from another one answers marginals, most probable values and joint distributions of its source. C46_training_set_refuted: a copy has the same contents and weights but may list its variables in another order (constant factors are absorbed first), so the same training set, whose columns follow that order, can give another gradient in the copy. C46_gradient_partial: with the columns of the training set reordered as the variables of the copy, the copy of a tree model of symmetric factors returns the gradient of its source, whatever the schedule, the number of threads and the training set. C46_training_partial: under the hypotheses of C52, any trainer run on the copy with the reordered training set ends as on the source (both return or both throw) and leaves the same weights. C46_conditional_gradient_partial, C46_conditional_training_partial: the conditional random field built from another one computes its gradient, and every trainer with the same draws leaves the same weights in the two, for training sets with their columns reordered; hidden variables joined by symmetric factors without cycles, and positions of the observed variables in the order of the map, as in C51."
 },
 {
  "property": "C47",
  "status": "partial",
  "theorems": [
   "C47_find_variable",
   "C47_unique_name_partial",
   "C47_same_name_refuted"
  ],
  "note": "the first variable with the name is returned; variables with the same name and different sizes are accepted by the model and only the first is found: refuted"
 },
 {
  "property": "C48",
  "status": "partial",
  "theorems": [
   "C48_restored_structure_partial",
   "C48_same_evidences",
   "C48_restored_marginals_partial",
   "C48_restored_marginals_refuted",
   "C48_restored_query_refuted"
  ],
  "note": "structure restored in general; marginals on trees when no evidence is removed next to a variable that stays observed, refuted otherwise"
 },
 {
  "property": "C49",
  "status": "partial",
  "theorems": [
   "C49_marginals_partial",
   "C49_map_partial",
   "C49_joint_partial",
   "C49_observed_partial",
   "C49_weights_effective",
   "C49_marginals_after_partial",
   "C49_gradient_after_partial",
   "C49_single_variable_refuted",
   "C49_observed_refuted",
   "C49_shared_insertion_refuted"
  ],
  "note": "For every history of a random field (insertions, evidence changes, setWeights, queries, gradients in any order) in which the weights are changed while the tunable factors join two hidden variables, every query and gradient equals the sums over all assignments with the current weights (marginals, MAP, joint for symmetric tree models; gradient formula of C39). Missing, and refuted: tunable factors on one variable (cached merged unary factors), on an observed variable (stored evidence messages), and shared insertions on an observed variable answer with the old weights."
 },
 {
  "property": "C50",
  "status": "proved",
  "theorems": [
   "C50_immutable"
  ],
  "note": "every history of public calls after construction"
 },
 {
  "property": "C51",
  "status": "partial",
  "theorems": [
   "C51_positions",
   "C51_gradient_formula_partial",
   "C51_gradient_is_derivative_partial",
   "C51_weights_set",
   "C51_positions_refuted",
   "C51_source_order_refuted",
   "C51_stale_weights_refuted"
  ],
  "note": "Formula (any field of numbers) and derivative of the conditional log-likelihood (reals, standard axioms of the reals), after any history of public calls in which the weights are changed only while every tunable factor on one variable is next to an observed one, for fields whose hidden variables are joined by symmetric factors without cycles, provided that the positions of the observed variables stored at construction follow the order of the map of the evidences and the order of the variables of the field. Refuted without these: another order of the set of observed variables, a source that got a tunable factor before a constant one (the stored positions are those of the source), a tunable factor on a hidden variable without observed neighbours. C51_positions: the positions kept are those of the observed variables of the source, in the order of getObservedVariables; so the condition on them holds when the field lists its variables as the source and the two containers are visited in the same order."
 },
 {
  "property": "C52",
  "status": "partial",
  "theorems": [
   "C52_field_partial",
   "C52_crf_partial",
   "C52_objective",
   "C52_conditional_objective",
   "C52_percentage",
   "C52_zero_threads",
   "C52_unary_refuted",
   "C52_small_percentage_refuted"
  ],
  "note": "For every trainer (any program that reads and sets the parameters and asks for gradients, with any continuation), every seed of the random subsets, every order of the hash containers: the training of the model is the training of a vector of parameters on the gradient of the mean (conditional) log-likelihood of the combinations drawn for each question. Hypotheses: no cycles, symmetric factors, tunable factors on two hidden variables (random field) or as in C51 (conditional random field). Refuted: tunable factors on one variable (stale messages after the weights are set), percentages that draw no combination (accepted, the training set is ignored). C52_objective and C52_conditional_objective use the axioms of the standard reals. The conversions float/double between the library of the trainers and the model are not modelled."
 },
 {
  "property": "C53",
  "status": "partial",
  "theorems": [
   "C53_field_partial",
   "C53_graph_partial",
   "C53_names_refuted",
   "C53_lone_variable_refuted",
   "C53_unlisted_refuted",
   "C53_sharing_refuted",
   "C53_source_order_refuted",
   "C53_conditional_partial",
   "C53_conditional_again_partial",
   "C53_answers_partial",
   "C53_conditional_answers_partial",
   "C53_training_set_refuted",
   "C53_gradient_partial",
   "C53_training_partial",
   "C53_conditional_gradient_partial",
   "C53_conditional_training_partial"
  ],
  "note": "For every random field or graph reached with careful calls, every order of the sets, every heap, every order of the multimaps that is a permutation and its own inverse (insertion at the end, at the front, after the first element): the export returns, and the import of any tag read from the printed text returns a model with the same variables, evidences, factors, weights and clusters as in C45. Conditions as in C45, each shown necessary by a refutation. C53_source_order_refuted: in a file written by hand, the columns of a Source file are exchanged when the multimaps insert at the front. Missing: the text of the file (XML-Parser is not in the repository: the texts are assumed to be found again, also for names with quotes or angle brackets). The import into a non empty model: C59, C61. Conditional random fields: C53_conditional_partial, C53_conditional_again_partial, as for C45. C53_answers_partial: the same answers to queries by name, as for C45. C53_conditional_answers_partial: the same for conditional random fields. C53_training_set_refuted: the model read back may list its variables in another order (constant factors are written first), so a training set made for the exported model can give another gradient, while the set with its columns reordered gives the same one. C53_gradient_partial: for every training set with its columns reordered by the names of the variables, the gradient of the model read is that of the exported one, for trees of symmetric factors and values the printing does not change. C53_training_partial: every trainer, with the same draws, leaves the same weights in the two models, or fails on both. Missing there: cycles, values changed by the printing. C53_conditional_gradient_partial, C53_conditional_training_partial: the same for the conditional random field built from what is read of the file of a conditional random field, with the positions of the observed variables in the order of the map, as in C51."
 },
 {
  "property": "C54",
  "status": "partial",
  "theorems": [
   "C54_no_undefined_behaviour_partial",
   "C54_outcomes_partial",
   "C54_marginal_answers_partial",
   "C54_map_answers_partial",
   "C54_field_no_undefined_behaviour_partial",
   "C54_field_weights_partial",
   "C54_field_outcomes_partial",
   "C54_conditional_construction_partial",
   "C54_conditional_copy_partial",
   "C54_conditional_no_undefined_behaviour_partial",
   "C54_conditional_numbers_partial",
   "C54_conditional_outcomes_partial",
   "C54_short_samples_refuted",
   "C54_values_out_of_range_refuted",
   "C54_numbers_partial",
   "C54_marginal_numbers_partial",
   "C54_map_numbers_partial",
   "C54_field_numbers_partial",
   "C54_float_calls_partial",
   "C54_float_marginals_partial",
   "C54_float_map_partial",
   "C54_float_field_partial",
   "C54_float_conditional_partial"
  ],
  "note": "For every history of calls on a graph that respects safe_use (SafeSpec.v), every order, schedule and factor values: no call is undefined behaviour or endless; it returns, throws or computes 0/0; marginal and MAP queries of variables of the model do not throw and have the right size. safe_use asks: no removal of evidence that throws, no removal of an evidence next to a variable that stays observed, at least one thread and connected variables of the same size for queries that propagate, at most one observed variable in a joint query. The same for every history of calls on a random field (insertions, copies, absorptions, weights, gradients, evidences, queries) that respects rsafe (FieldSafeSpec.v): in addition, samples in the range of the variables, weights changed while the tunable factors join hidden variables. Samples that are too short or out of range are undefined behaviour (the two _refuted). The same for conditional random fields: construction, copies and every history of calls (evidences, queries, weights, gradients, samples, train sets) that respects csafe (CondSafeSpec.v): in addition no query or sample between new weights and new evidences, and at least one combination in a train set (C41_small_percentage). Outside these conditions the full claim is false, see C20_set_evidence_refuted, C48_restored_query_refuted, C33_usable_refuted, C25_observed_marginal_refuted, C24_two_observed_refuted. All these theorems hold for every arithmetic; in one that goes on after 0/0 (IEEE 754 floats, FloatNum.v) a call returns or throws."
 },
 {
  "property": "C55",
  "status": "partial",
  "theorems": [
   "C55_several_threads_partial",
   "C55_one_or_two_threads_refuted",
   "C27_same_marginal_partial",
   "C27_same_map_partial"
  ],
  "note": "Every graph, every query and schedule: two numbers of threads above one give the same answer and the same final state up to the contents that a schedule may change. On trees also one thread (C27). On graphs with cycles one thread and two threads give different answers (refuted): the serial and the pool strategies update the messages in different ways."
 },
 {
  "property": "C56",
  "status": "partial",
  "theorems": [
   "C56_const_partial",
   "C56_tunable_partial",
   "C56_clusters_partial"
  ],
  "note": "Every list, with or without copies, in the states reached with calls that keep the stored factors up to date (careful False, Coherent.v). For clusters the factors join variables without evidence. Missing: the states reached by setWeights on tunable factors with one variable or next to an evidence."
 },
 {
  "property": "C57",
  "status": "partial",
  "theorems": [
   "C57_draws",
   "C57_stationary",
   "C57_convergence_partial",
   "C57_field_convergence_partial",
   "C57_conditional_convergence_partial",
   "C57_convergence_refuted"
  ],
  "note": "C57_draws: the numbers drawn that lead from a combination to another are an interval whose length is the probability of the move. C57_stationary: the moves keep the distribution of the model, in any order. Convergence, with a geometric bound uniform in the events, orders, threads and numbers drawn, is proved for graphs, random fields and conditional random fields where no combination is impossible. C57_convergence_refuted: with a factor that the library builds as simply correlated two values are equally probable and all the samples are equal to the first one. Missing: that the generators of the standard library give uniform independent numbers, and that they never give 0 (C35_null_refuted)."
 },
 {
  "property": "C58",
  "status": "partial",
  "theorems": [
   "C58_after_evidences",
   "C58_after_construction",
   "C58_marginals_partial",
   "C58_map_partial",
   "C58_joint_partial",
   "C58_observed_partial",
   "C58_conditional_partial",
   "C58_conditional_map_partial",
   "C58_conditional_joint_partial",
   "C58_weights_refuted"
  ],
  "note": "C58_conditional_partial: setEvidences returns and the marginal asked next is the conditional distribution given the values passed, after any history. C58_after_evidences and C58_after_construction say which states the other theorems are about, and queries keep them so. Partial: symmetric factors between the hidden variables and a tree around the variable asked (as in C22, refuted without), the weights of factors on one variable changed only when allowed as in C51. Asking right after setWeights, without setting the evidences again, gives another answer: C58_weights_refuted. C58_conditional_map_partial and C58_conditional_joint_partial: the most probable value and the joint distribution given the values passed to setEvidences."
 },
 {
  "property": "C59",
  "status": "partial",
  "theorems": [
   "C59_json_grows",
   "C59_xml_grows",
   "C59_json_safe_partial",
   "C59_xml_safe_partial",
   "C59_json_separate",
   "C59_xml_separate",
   "C59_missing_members_refuted",
   "C59_big_integer_refuted",
   "C59_blank_line_refuted",
   "C59_rollback_refuted",
   "C59_evidence_of_homonym_refuted"
  ],
  "note": "C59_json_grows, C59_xml_grows: for any document and any model reached with careful calls, when the import returns or throws everything that was in the model is unchanged (variables, factors, objects, clusters of weights, evidences of the variables that the document does not observe) and what is new is on new variables named in the document; the import never runs for ever. C59_*_safe_partial: no undefined behaviour for readable documents (compulsory members, integers that fit an int, no blank line in the files of values) when no observed variable of the model has a name of the document; the state after, also after an exception, is one from which C54 holds. C59_*_separate: the new factors share no variable with the old ones. Refuted: undefined behaviour for missing members, for big integers, for blank lines; an import that throws is not undone; an evidence of the document may go to a variable of the model with the same name and another size. Missing: the parsing of the text of the files; weights shared on observed variables of the model."
 },
 {
  "property": "C60",
  "status": "partial",
  "theorems": [
   "C60_distribution",
   "C60_marginal_answers_partial",
   "C60_map_answers_partial",
   "C60_joint_answers_partial",
   "C60_json_import_partial",
   "C60_xml_import_partial",
   "C60_evidence_partial",
   "C60_json_import_map_partial",
   "C60_json_import_joint_partial",
   "C60_xml_import_map_partial",
   "C60_xml_import_joint_partial",
   "C60_evidence_map_partial",
   "C60_evidence_joint_partial"
  ],
  "note": "C60_distribution: the probability of any event about the variables linked to v is the same in the two models (any graph, with or without cycles). C60_marginal_answers_partial and C60_map_answers_partial: the answers returned are the same, when the linked variables form a tree and with the conditions of C22/C23 on the two models (symmetric factors between hidden variables, some assignment of positive weight). C60_joint_answers_partial: the joint distributions of a group of hidden variables linked to v, connected inside the group, are returned by both models and are the same up to a positive constant. C60_json_import_partial, C60_xml_import_partial: before and after an import, also one that throws; C60_evidence_partial: before and after setEvidence. Missing: answers on linked variables with cycles; joint queries of groups with observed variables or not connected inside. The same for the most probable values and the joint distributions: C60_json_import_map_partial, C60_json_import_joint_partial, and for xml. C60_evidence_map_partial and C60_evidence_joint_partial: setting an evidence on a variable that is not linked changes neither the most probable values nor the joint distributions."
 },
 {
  "property": "C61",
  "status": "proved",
  "theorems": [
   "C61_json",
   "C61_xml",
   "C61_json_rejects",
   "C61_xml_rejects"
  ],
  "note": "For every document and every model reached by any calls. If two variables of the document have the same name (and different sizes) the library sets the evidence of the first one read, on the first variable of the model with that name (see C59_evidence_of_homonym_refuted): the theorem then says that some variable with the name has one of the values written for the name. For a factor that shares its weight the weight is the one of its cluster. C61_json_rejects and C61_xml_rejects say that the import does not return (that it is an exception and not undefined behaviour is C59 for readable documents)."
 },
 {
  "property": "C62",
  "status": "partial",
  "theorems": [
   "C62_answers_partial",
   "C62_marginals_partial",
   "C62_map_partial",
   "C62_joint_partial",
   "C62_gradient_partial",
   "C62_retraining_partial",
   "C62_conditional_partial",
   "C62_conditional_joint_partial"
  ],
  "note": "Random fields: after every history of calls (as in C49) and of trainings (as in C52), ended normally or with an exception, the marginals, most probable values, joint distributions and gradients are the ones of the weights the model then has; right after a training that starts without evidences they are the ones of the weights of the ideal training of C52, and a further training is again the ideal one. Hypotheses: those of C49 on the calls and of C52_field_partial on the trainings (no cycles, symmetric factors, tunable factors on two hidden variables). C62_conditional_partial: a conditional random field whose evidences are set after a training answers with the trained weights given these evidences (hypotheses of C52_crf_partial). Missing: histories with several trainings of a conditional random field, cycles, tunable factors on one variable (C49_single_variable_refuted, C52_unary_refuted)."
 }
]