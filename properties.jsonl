{"id": "C01", "title": "Joint domain enumeration", "statement": "Iterating a GroupRange from its initial value until it equals the end visits every element of the joint domain of the variables exactly once, in lexicographic order (last variable fastest), starts at <0,..,0>, and terminates; incrementing a finished range throws.", "quantifier": "every non empty list of positive sizes", "why_tests_cant": "The number of lists of sizes is infinite; tests only check a few groups.", "anchors": ["src/src/categoric/GroupRange.cpp: GroupRange::operator++", "src/header/EasyFactorGraph/categoric/GroupRange.h: for_each_combination"]}
{"id": "C02", "title": "Linear index is a bijection that agrees with the enumeration", "statement": "The index used to store a combination in a dense factor is a bijection between the valid combinations and 0..size-1 and the i-th element of the range has index i.", "quantifier": "every non empty list of positive sizes, every valid combination", "why_tests_cant": "Collisions can appear for any shape; cannot be enumerated.", "anchors": ["src/src/factor/Function.cpp: CombinationHasher"]}
{"id": "C03", "title": "A factor behaves as a total map", "statement": "After any sequence of successful set/clear calls, the image of a combination is the last value set for it after the last clear, or 0 if there is none, whatever switch between the sparse and the dense representation happened; the enumeration of all combinations with their images agrees with the individual images.", "quantifier": "every group, every sequence of set/clear operations, every combination", "why_tests_cant": "The representation switch depends on the whole history of insertions.", "anchors": ["src/src/factor/Function.cpp: Function::set, Function::findImage", "src/header/EasyFactorGraph/factor/Function.h: forEachCombination, clear"]}
{"id": "C04", "title": "Invalid images are rejected without effect", "statement": "Setting an image throws exactly when the value is negative, the combination has the wrong length, or some entry is not smaller than the size of the matching variable, and in this case every image is unchanged.", "quantifier": "every factor, combination and value", "why_tests_cant": "All combinations and all values cannot be tried.", "anchors": ["src/src/factor/Mutable.cpp: Mutable::set"]}
{"id": "C05", "title": "Non-null enumeration covers the support", "statement": "The enumeration of the non null combinations reports every combination with a non zero image exactly once with the right image, reports no combination twice, and every other reported combination has image 0.", "quantifier": "every factor reachable by set/clear", "why_tests_cant": "Depends on the history of sets, which decides the representation.", "anchors": ["src/header/EasyFactorGraph/factor/Function.h: forEachNonNullCombination"]}
{"id": "C06", "title": "Correlating factors", "statement": "A simply correlated factor has image 1 on combinations with all equal values and 0 elsewhere; a simply anti-correlated one has the complement; both constructors throw exactly when the group has one variable or variables of different sizes.", "quantifier": "every group of variables", "why_tests_cant": "Arbitrary number of variables and sizes.", "anchors": ["src/src/factor/Factor.cpp: SimplyCorrelatedFunction, SimplyAntiCorrelatedFunction"]}
{"id": "C07", "title": "Merging factors is the pointwise product", "statement": "The factor built from a collection of factors is defined on the union of their variables and its image at any combination is the product of the images of the single factors at the corresponding sub-combinations, whatever the order of the collection and of the internal sets; it throws when two distinct instances of the same variable are involved.", "quantifier": "every non empty collection of factors, every iteration order of the hash containers", "why_tests_cant": "Iteration order of unordered containers is unspecified, and collections are unbounded.", "anchors": ["src/src/factor/Factor.cpp: gather_variables, Factor::Factor(const std::vector<const Immutable*>&)"]}
{"id": "C08", "title": "Changing the order of the variables preserves the factor", "statement": "cloneWithPermutedGroup returns a factor with the requested order of variables whose image at every combination is the raw image of the original at the un-permuted combination; it throws exactly when the new group is not a permutation of the original variables.", "quantifier": "every factor, every new group", "why_tests_cant": "Number of permutations and combinations is unbounded.", "anchors": ["src/src/factor/Factor.cpp: compute_new_positions, get_permuted, cloneWithPermutedGroup"]}
{"id": "C09", "title": "Sub-combination lookup", "statement": "A finder built for a factor inside a bigger group returns, at each combination of the bigger group, the image of the factor at the values of its own variables; building it throws exactly when some variable of the factor is missing from the bigger group (or this is shorter).", "quantifier": "every factor, bigger group, combination", "why_tests_cant": "Unbounded groups.", "anchors": ["src/src/factor/ImageFinder.cpp: get_indices, extractSmallerCombination"]}
{"id": "C10", "title": "Exponential factors", "statement": "An exponential factor evaluates to exp(weight*raw image) at every combination, where raw images are those of the factor it is built from; changing the weight changes only the weight; copies have the same images and weight and do not alias.", "quantifier": "every factor, every weight, every combination", "why_tests_cant": "Values and shapes are unbounded.", "anchors": ["src/src/factor/FactorExponential.cpp: ExponentialFunction"]}
{"id": "C11", "title": "Probabilities of a factor", "statement": "getProbabilities returns one value per combination, in the enumeration order; the values are non negative, sum to 1 and are proportional to the images; they are uniform when all images are 0.", "quantifier": "every factor with non negative images", "why_tests_cant": "Real valued images, unbounded domains.", "anchors": ["src/src/factor/Immutable.cpp: Immutable::getProbabilities"]}
{"id": "C12", "title": "Group uniqueness", "statement": "A group never contains the same variable (name and size) twice: construction and add throw exactly in this case (and for an empty group), otherwise order is kept. The documented stronger claim, that names are unique, is checked too.", "quantifier": "every list of variables", "why_tests_cant": "Unbounded lists of variables.", "anchors": ["src/src/categoric/Group.cpp: Group::Group, Group::add", "src/header/EasyFactorGraph/categoric/Group.h"]}
{"id": "C13", "title": "Replacing the variables of a group", "statement": "replaceVariables either throws leaving the group unchanged or replaces the variables preserving every size; it never has undefined behaviour.", "quantifier": "every group, every list of new variables", "why_tests_cant": "Malformed arguments are unbounded.", "anchors": ["src/src/categoric/Group.cpp: Group::replaceVariables"]}
{"id": "C14", "title": "Set difference of variables", "statement": "get_complementary returns exactly the variables of the entire set that are not in the subset.", "quantifier": "every pair of sets", "why_tests_cant": "Unbounded sets.", "anchors": ["src/src/categoric/Group.cpp: operator-=, get_complementary"]}
{"id": "C15", "title": "Marginalised evidence", "statement": "The unary factor obtained by fixing a variable of a binary factor to an observed value has, at each value of the other variable, the image of the binary factor at that pair.", "quantifier": "every binary factor, both positions of the observed variable, every value", "why_tests_cant": "Unbounded sizes and values.", "anchors": ["src/src/structure/SpecialFactors.cpp: Evidence"]}
{"id": "C16", "title": "Belief messages", "statement": "The SUM (MAP) message sent through a binary factor has, at each value b of the receiver, the sum (maximum) over the values a of the sender of the sender belief at a times the factor image at (sender=a, receiver=b).", "quantifier": "every binary factor, both orders of its variables, every sender belief", "why_tests_cant": "Unbounded sizes and values; symmetric factors hide transposition errors.", "anchors": ["src/src/structure/SpecialFactors.cpp: fill_message, get_positions, MessageSUM, MessageMAP"]}
{"id": "C17", "title": "Merged unaries", "statement": "The combination of several unary factors of a variable is proportional, with a positive constant, to the product of their images, and has maximum 1; factors of other variables are rejected.", "quantifier": "every non empty list of unary factors whose product is not identically null", "why_tests_cant": "Unbounded lists and real values.", "anchors": ["src/src/structure/SpecialFactors.cpp: MergableFunction, MergedUnaries"]}
{"id": "C18", "title": "Every variable is either hidden or observed", "statement": "At any time the hidden variables and the observed variables are disjoint and their union is the set of variables of the model; each variable is inserted once and keeps the instance it was inserted with.", "quantifier": "every sequence of insertions, evidence settings and removals", "why_tests_cant": "History dependent: unboundedly many sequences of calls.", "anchors": ["src/src/structure/bases/StateAware.cpp: getHiddenVariables, getObservedVariables", "src/src/structure/bases/FactorsAware.cpp: findOrMakeNode", "src/src/structure/EvidenceManager.cpp"]}
{"id": "C19", "title": "Clusters are the connected components", "statement": "After any history the clusters are exactly the connected components of the graph that has the hidden variables as nodes and the binary factors between hidden variables as edges.", "quantifier": "every sequence of insertions, evidence settings and removals, every iteration order of hash containers", "why_tests_cant": "Incremental maintenance depends on the whole history.", "anchors": ["src/src/structure/Types.cpp: compute_clusters", "src/src/structure/EvidenceManager.cpp: setEvidence, resetState", "src/src/structure/bases/FactorsAware.cpp: addBinaryDistribution"]}
{"id": "C20", "title": "Evidence store", "statement": "The evidences reported are the last values set and not removed since; setting an evidence fails, without effect, exactly when the variable is unknown or the value is out of range.", "quantifier": "every sequence of setEvidence / removeEvidence / removeAllEvidences", "why_tests_cant": "History dependent.", "anchors": ["src/src/structure/EvidenceManager.cpp: EvidenceSetter::setEvidence, EvidenceRemover"]}
{"id": "C21", "title": "Insertion of factors", "statement": "Inserting a factor either adds exactly that factor to the model or throws; it throws exactly when the pointer is null, the factor was already inserted, it has neither one nor two variables, one of its variables equals another instance already in the model, or its two variables are already connected; the other factors are unaffected. A failed insertion should leave the model unchanged.", "quantifier": "every model state and every factor", "why_tests_cant": "History dependent, unbounded models.", "anchors": ["src/src/structure/bases/FactorsAware.cpp: addDistribution, addUnaryDistribution, addBinaryDistribution"]}
{"id": "C22", "title": "Exact marginals on trees", "statement": "When the cluster of a hidden variable is a tree, getMarginalDistribution returns the conditional probability given the current evidences: the normalised sum, over all the assignments of the hidden variables, of the product of the images of all the factors of the model.", "quantifier": "every reachable model whose clusters are trees, every set of evidences with positive probability, every variable, every iteration order and number of threads", "why_tests_cant": "Infinite number of models and of real valued factors; requires induction over the graph.", "anchors": ["src/src/structure/bases/BeliefAware.cpp: message_passing, propagateBelief", "src/src/structure/QueryManager.cpp: getMarginalDistribution", "src/src/structure/Types.cpp: updateMessage, updateConnectivity"]}
{"id": "C23", "title": "Exact MAP on trees", "statement": "When the cluster of a hidden variable is a tree, getMAP returns a value that maximises the max-marginal (the maximum over the other hidden variables of the product of all factors); when the most probable assignment is unique getHiddenSetMAP returns it.", "quantifier": "every reachable model whose clusters are trees, every evidence set, every variable", "why_tests_cant": "Infinite number of models and of real valued factors.", "anchors": ["src/src/structure/QueryManager.cpp: getMAP, getHiddenSetMAP, find_max", "src/src/structure/SpecialFactors.cpp: MessageMAP"]}
{"id": "C24", "title": "Joint marginals of a subgroup", "statement": "getJointMarginalDistribution of a subgroup returns a factor, with the variables in the requested order, proportional to the marginal joint distribution of these variables conditioned to the evidences.", "quantifier": "every reachable tree model, every subgroup", "why_tests_cant": "Unbounded models and subgroups.", "anchors": ["src/src/structure/QueryManager.cpp: getJointMarginalDistribution"]}
{"id": "C25", "title": "Observed variables in queries", "statement": "The marginal distribution of an observed variable is 1 at the observed value and 0 elsewhere, and its MAP is the observed value.", "quantifier": "every reachable model, every evidence", "why_tests_cant": "History dependent.", "anchors": ["src/src/structure/QueryManager.cpp: getMarginalDistribution, find_max"]}
{"id": "C26", "title": "Queries do not disturb the model", "statement": "Queries change neither variables, evidences, factors nor clusters, and asking the same query again, possibly interleaved with other queries, returns the same answer.", "quantifier": "every reachable model, every sequence of queries", "why_tests_cant": "Caching makes the answer depend on the history of calls.", "anchors": ["src/src/structure/bases/BeliefAware.cpp: wouldNeedPropagation, propagateBelief", "src/header/EasyFactorGraph/structure/QueryManager.h: checkPropagation_"]}
{"id": "C27", "title": "Answers depend only on the current model", "statement": "Marginals after any history equal those of a model freshly built with the same factors and evidences (no stale cache).", "quantifier": "every history of insertions, evidence changes, weight changes and queries", "why_tests_cant": "History dependent: caches and incremental updates.", "anchors": ["src/src/structure/EvidenceManager.cpp: removeEvidence_", "src/src/trainable/FactorsTunableManager.cpp: setWeights", "src/src/structure/bases/BeliefAware.cpp: propagateBelief"]}
{"id": "C28", "title": "Tree detection", "statement": "After a propagation, a cluster is flagged as a tree exactly when the graph of its hidden variables has no cycle, the reported sizes are the numbers of variables of the clusters.", "quantifier": "every cluster graph", "why_tests_cant": "Unbounded graphs.", "anchors": ["src/src/structure/bases/BeliefAware.cpp: message_passing"]}
{"id": "C29", "title": "Calls terminate", "statement": "Every call of the API terminates: a belief propagation makes at most one computation per directed edge on trees and at most max_iterations sweeps on loopy clusters, and the calls that insert factors, set weights, compute gradients, draw samples, build train sets and train a model terminate too, on graphs, random fields and conditional random fields.", "quantifier": "every model state, every iteration order, every schedule, every sequence of random numbers", "why_tests_cant": "Termination over all graphs.", "anchors": ["src/src/structure/bases/BeliefAware.cpp: message_passing", "src/src/structure/BaselineLoopyPropagator.cpp: propagateBelief, compute_loopy_order"]}
{"id": "C30", "title": "Loopy batches", "statement": "The batches of messages used by the multi-threaded loopy propagation partition all the messages, and no message of a batch depends on another message of the same batch.", "quantifier": "every cluster graph", "why_tests_cant": "All graphs and all greedy choices.", "anchors": ["src/src/structure/BaselineLoopyPropagator.cpp: compute_loopy_order"]}
{"id": "C31", "title": "Thread pool runs every task exactly once", "statement": "parallelFor returns only after every task was executed exactly once, task k by thread (k mod size); it never deadlocks; the shutdown joins all workers.", "quantifier": "every number of tasks and threads, every interleaving", "why_tests_cant": "All schedules cannot be tested.", "anchors": ["src/src/structure/bases/PoolAware.cpp: process_tasks_in_parallel, Pool::parallelFor, Pool::Worker::Worker, Pool::~Pool"]}
{"id": "C32", "title": "Results do not depend on the schedule", "statement": "Messages of a batch, and samples of a batch, computed concurrently give the same result as the sequential execution in list order, for every interleaving of the threads.", "quantifier": "every batch, every interleaving", "why_tests_cant": "All schedules cannot be tested.", "anchors": ["src/src/structure/bases/BeliefAware.cpp: message_passing", "src/src/structure/BaselineLoopyPropagator.cpp: compute_loopy_order", "src/src/structure/GibbsSampler.cpp: make_sampling_tasks"]}
{"id": "C33", "title": "Invalid number of threads", "statement": "A call with 0 threads throws and leaves the model usable.", "quantifier": "every model state", "why_tests_cant": "State dependent error path.", "anchors": ["src/src/structure/bases/PoolAware.cpp: setPoolSize, Pool::Pool"]}
{"id": "C34", "title": "Gibbs samples are well formed", "statement": "makeSamples returns the requested number of combinations; each has one entry per variable in the order of getAllVariables(), every entry is smaller than the size of its variable, and observed variables always have their evidence value.", "quantifier": "every model, every random engine, every context", "why_tests_cant": "Random engines and histories are unbounded.", "anchors": ["src/src/structure/GibbsSampler.cpp: makeSamples, makeSamplerNodes, make_sampling_task"]}
{"id": "C35", "title": "Discrete sampling", "statement": "Sampling from a discrete distribution with a uniform draw s returns the first index whose cumulative probability is at least s, hence index k exactly for draws in an interval of length p_k, and never an index with null probability unless s is on the boundary.", "quantifier": "every distribution, every draw", "why_tests_cant": "Continuous inputs.", "anchors": ["src/src/structure/GibbsSampler.cpp: sampleFromDiscrete"]}
{"id": "C36", "title": "Gibbs conditional", "statement": "Each sampling step draws a variable from its exact conditional distribution given the current values of all the other variables.", "quantifier": "every model (also loopy), every current combination", "why_tests_cant": "Unbounded models.", "anchors": ["src/src/structure/GibbsSampler.cpp: make_sampling_task, makeSamplerNodes"]}
{"id": "C37", "title": "Weights round trip", "statement": "getWeights after setWeights returns the same vector; all factors of a sharing group have the same weight; the number of weights is the number of tunable clusters; a vector of the wrong size is rejected without effect.", "quantifier": "every history of tunable insertions, every vector", "why_tests_cant": "History dependent.", "anchors": ["src/src/trainable/FactorsTunableManager.cpp: getWeights, setWeights, addTunableFactor"]}
{"id": "C38", "title": "Failed tunable insertion", "statement": "Adding a tunable factor that refers to an unknown sharing group throws and leaves the model unchanged.", "quantifier": "every model, every group", "why_tests_cant": "State dependent error path.", "anchors": ["src/src/trainable/FactorsTunableManager.cpp: addTunableFactor, findTuner"]}
{"id": "C39", "title": "Gradient of the likelihood", "statement": "For a tree random field with no evidence each component of the gradient is the derivative of the mean log-likelihood of the training set with respect to the corresponding weight.", "quantifier": "every tree random field, every training set, every weight vector", "why_tests_cant": "Real analysis over all models.", "anchors": ["src/src/model/RandomField.cpp: getWeightsGradient_", "src/src/trainable/tuners/BaseTuner.cpp", "src/src/trainable/tuners/UnaryTuner.cpp", "src/src/trainable/tuners/BinaryTuner.cpp"]}
{"id": "C40", "title": "Order of the evidences of a conditional random field", "statement": "setEvidences assigns the k-th value to the k-th variable of getObservedVariables().", "quantifier": "every conditional random field, every iteration order of hash containers", "why_tests_cant": "Iteration orders are unspecified.", "anchors": ["src/src/model/ConditionalRandomField.cpp: setEvidences, makeTrainSet"]}
{"id": "C41", "title": "Training samples of a conditional random field", "statement": "makeTrainSet visits evidence combinations without undefined behaviour for every percentage in (0,1], never increments a finished range.", "quantifier": "every number of combinations and percentage", "why_tests_cant": "Arithmetic edge cases.", "anchors": ["src/src/model/ConditionalRandomField.cpp: makeTrainSet"]}
{"id": "C42", "title": "Training set", "statement": "A TrainSet accepts exactly the non empty lists of combinations of equal length; a sub-set iterator visits only elements of the set, in number floor(percentage*size).", "quantifier": "every list of combinations, every percentage, every random source", "why_tests_cant": "Unbounded, random.", "anchors": ["src/src/trainable/TrainSet.cpp"]}
{"id": "C43", "title": "Import of a training set", "statement": "import_train_set returns the combinations written in the file, one per line.", "quantifier": "every file content", "why_tests_cant": "All files cannot be tried.", "anchors": ["src/src/io/TrainSetImport.cpp: import_train_set", "src/src/io/Utils.cpp: parse_combination_image", "src/src/io/Utils.h: for_each_line"]}
{"id": "C44", "title": "Import of factor values", "statement": "import_values applies exactly the set operations described by the lines of the file, also when the file ends with a newline.", "quantifier": "every file content", "why_tests_cant": "All files cannot be tried.", "anchors": ["src/src/io/Utils.cpp: import_values", "src/src/io/Utils.h: for_each_line"]}
{"id": "C45", "title": "JSON round trip", "statement": "Exporting a model to JSON and importing it into an empty model gives the same variables and factors (images equal up to the printed precision), the same sharing of weights.", "quantifier": "every model", "why_tests_cant": "All models cannot be tried.", "anchors": ["src/src/io/json/Exporter.cpp", "src/src/io/json/Importer.cpp"]}
{"id": "C46", "title": "Copy of a model", "statement": "The copy constructors of the models give a model with the same factors, the same evidences and hence the same distribution, independent of the original.", "quantifier": "every model", "why_tests_cant": "Unbounded.", "anchors": ["src/src/model/Graph.cpp", "src/src/structure/FactorsConstManager.cpp: absorbConstFactors", "src/src/trainable/FactorsTunableManager.cpp: absorbTunableClusters"]}
{"id": "C47", "title": "Lookup of variables by name", "statement": "findVariable returns the variable with the given name, or throws when there is none.", "quantifier": "every history", "why_tests_cant": "History dependent.", "anchors": ["src/src/structure/bases/StateAware.cpp: findVariable"]}
{"id": "C48", "title": "Evidence removal restores the previous model", "statement": "Setting evidences and then removing them gives back the model before: same clusters, same connections, same marginals.", "quantifier": "every model, every set of evidences, every order of removal", "why_tests_cant": "History dependent.", "anchors": ["src/src/structure/EvidenceManager.cpp: removeEvidence_, removeEvidences, removeAllEvidences, resetState"]}
{"id": "C49", "title": "Answers after a change of the weights", "statement": "After setWeights every query and every gradient is computed with the new weights.", "quantifier": "every random field, every weight vector, every sequence of insertions, evidence changes and queries before and after", "why_tests_cant": "Cached intermediate results make the answer depend on the history.", "anchors": ["src/src/trainable/FactorsTunableManager.cpp: setWeights", "src/src/structure/Types.cpp: Node::updateMerged", "src/src/structure/EvidenceManager.cpp: setEvidence"]}
{"id": "C50", "title": "Structure of a conditional random field", "statement": "Once built, a conditional random field never changes its variables, its factors, the sharing of the weights, nor the set of its observed variables, whatever calls are made on it, including the calls that throw.", "quantifier": "every conditional random field, every sequence of calls", "why_tests_cant": "History dependent.", "anchors": ["src/header/EasyFactorGraph/model/ConditionalRandomField.h: ConditionalRandomField", "src/src/model/ConditionalRandomField.cpp"]}
{"id": "C51", "title": "Gradient of a conditional random field", "statement": "Each component of the gradient of a conditional random field is the derivative, with respect to the corresponding weight, of the mean of the logarithms of the probabilities of the combinations of the training set given the values of the observed variables in the combination.", "quantifier": "every conditional random field whose hidden variables form trees, every training set, every weight vector, every sequence of calls before", "why_tests_cant": "Real analysis over all models, history dependent caches.", "anchors": ["src/src/model/ConditionalRandomField.cpp: getWeightsGradient_, find_positions, replaceIfNeeded", "src/src/model/HiddenObservedTuner.cpp", "src/src/trainable/tuners/UnaryTuner.cpp", "src/src/trainable/tuners/BinaryTuner.cpp"]}
{"id": "C52", "title": "Training", "statement": "Training a model has on its weights the effect of running the trainer on a vector of parameters that starts from the weights of the model, where each gradient asked for is the opposite of the gradient of the mean (conditional) log-likelihood of the training set, or of a random subset of it with the wanted percentage of elements drawn again for each question. The model ends with the parameters set last, its factors, variables, sharing of the weights do not change, and it throws exactly when the trainer throws or sets a vector of another size.", "quantifier": "every trainer, every random field and conditional random field without cycles, every training set, percentage, number of threads, every random choice", "why_tests_cant": "The trainer is arbitrary code; the effect of a step depends on the caches left by the steps before.", "anchors": ["src/src/trainable/ModelTrainer.cpp: TrainSetWrapper, ModelWrapper, train_model", "src/header/EasyFactorGraph/trainable/ModelTrainer.h: TrainInfo, train_model"]}
{"id": "C53", "title": "XML round trip", "statement": "A model exported to an XML file and imported again from it has the same variables, evidences, factors, weights and sharing of the weights (up to the printing of the numbers), whatever the order in which the multimaps of the XML library keep the attributes and the tags with the same name.", "quantifier": "every model reached with any sequence of calls, every order of the hash containers and of the multimaps", "why_tests_cant": "All models and orders cannot be tried; the order of the elements of a multimap is decided by the standard library.", "anchors": ["src/src/io/xml/Exporter.cpp: printVariable, printGroup, printPotential, printExpPotential, Exporter::convert", "src/src/io/xml/Importer.cpp: importVariable, importFactor, importPotential, Importer::convert", "src/header/EasyFactorGraph/io/xml/Importer.h: Importer::importFromFile"]}
{"id": "C54", "title": "No undefined behaviour", "statement": "Calls on a graph (insertions, evidences, propagation, queries) never read out of bounds, follow a null or dangling pointer or run for ever: each returns, throws, or computes 0/0. Queries about a variable of the model never throw.", "quantifier": "every sequence of calls, every set of factors with any nonnegative values, every iteration order of the hash containers, every number of threads and schedule", "why_tests_cant": "Undefined behaviour depends on the history, the order of the containers and the schedule; a test can pass although the behaviour is undefined.", "anchors": ["src/src/structure/QueryManager.cpp: getMarginalDistribution, getMAP, getHiddenSetMAP, getJointMarginalDistribution", "src/src/structure/bases/BeliefAware.cpp: propagateBelief", "src/src/structure/EvidenceManager.cpp: setEvidence, removeEvidence", "src/src/structure/bases/StateAware.cpp", "src/src/structure/Types.cpp"]}
{"id": "C55", "title": "The number of threads does not change the answers", "statement": "A query asked with a number of threads gives the same answer as the same query asked with another number of threads on the same model: the parameter only affects the time that the query takes.", "quantifier": "every history of calls, every query, every pair of numbers of threads, every schedule of the threads, every order of the hash containers", "why_tests_cant": "Tests compare a few numbers of threads on a few graphs.", "anchors": ["src/src/structure/BaselineLoopyPropagator.cpp: BaselineLoopyPropagator::propagateBelief", "src/src/structure/bases/BeliefAware.cpp: BeliefAware::propagateBelief"]}
{"id": "C56", "title": "Absorption skips the factors that cannot be inserted", "statement": "Absorbing a list of factors (constant, tunable, or clusters of tunable factors) never throws: each factor that an insertion would reject is skipped, the others are inserted as if one at a time, in the order of the list. A cluster is inserted up to its first rejected factor; if the first one is rejected the whole cluster is skipped. With copies, the model gets new factors with the same variables and values and the given ones are left as they were.", "quantifier": "every history of calls, every list of factors, with or without copies", "why_tests_cant": "Rejections depend on what the model has when each factor is reached, including what the same call has inserted: tests absorb a few lists that are all accepted.", "anchors": ["src/header/EasyFactorGraph/structure/FactorsConstManager.h: absorbConstFactors", "src/header/EasyFactorGraph/trainable/FactorsTunableManager.h: absorbTunableFactors", "src/src/trainable/FactorsTunableManager.cpp: absorbTunableClusters"]}
{"id": "C57", "title": "The samples follow the distribution of the model", "statement": "The samples of makeSamples tend to be distributed as the model says: when the numbers drawn are uniform, the distribution of the model is kept by the updates of the sampler, and whatever the starting values the probability of every event after n sweeps over the hidden variables differs from its probability given the evidences by an amount that vanishes when n grows.", "quantifier": "every model, every evidence, every event, every number of sweeps, every order of the variables, every number of threads", "why_tests_cant": "A statement on limits and on all the events; tests compare frequencies with a tolerance on a few small graphs.", "anchors": ["src/src/structure/GibbsSampler.cpp: GibbsSampler::makeSamples, evolve_samples, UniformSampler::sampleFromDiscrete", "src/header/EasyFactorGraph/structure/GibbsSampler.h: GibbsSampler::SamplesGenerationContext"]}
{"id": "C58", "title": "Answers of a conditional random field", "statement": "A query on a conditional random field just made, or whose evidences were set with setEvidences, gives the distribution of the variables asked given exactly the values of the evidences and with the current weights, whatever calls were made before (other evidences, changes of the weights, gradients, samples, training sets, calls that threw).", "quantifier": "every conditional random field, every history of calls on it, every list of values", "why_tests_cant": "History dependent: stale messages show only after particular sequences of calls.", "anchors": ["src/src/model/ConditionalRandomField.cpp: setEvidences, ConditionalRandomField", "src/header/EasyFactorGraph/structure/QueryManager.h: getMarginalDistribution, getMAP, getJointMarginalDistribution"]}
{"id": "C59", "title": "Importing any document into any model", "statement": "Importing a json or xml file, well formed or not, into a model that already has variables and factors never removes or changes what was there: when the import returns or throws, the variables, factors, weights and evidences of before are unchanged, except the evidences of the variables that the document observes by name; what is new is on new variables named in the document, apart from the old ones; the model can be used as before. The import always ends, and reads nothing out of bounds when the document has its compulsory members and its integers fit an int.", "quantifier": "every model reachable by any history of calls, every json value and every tree of xml tags, every content of the files of values, every order of the sets", "why_tests_cant": "Malformed documents are infinitely many; the state left by an exception in the middle of an import depends on the document and on the history of the model.", "anchors": ["src/header/EasyFactorGraph/io/json/Importer.h: importFromJson, set_evidences", "src/header/EasyFactorGraph/io/xml/Importer.h: importFromFile", "src/src/io/json/Importer.cpp: Importer::convert", "src/src/io/xml/Importer.cpp: Importer::convert", "src/src/io/Utils.cpp: ImportHelper"]}
{"id": "C60", "title": "What is not linked to a variable does not change its distribution", "statement": "Two models in which the variables linked to v (by factors between hidden variables) have the same factors, with the same weights and the same evidences on the variables of these factors, give the same answers to the queries about v, whatever the rest of the models and their histories. In particular importing a document on other variables, or observing a variable with no factor in common with those linked to v, changes no answer about v.", "quantifier": "every pair of models and of histories, every variable, every number of threads, every order of the sets", "why_tests_cant": "It quantifies over pairs of models and histories; the influence of a distant factor can be a stale message seen only after some sequence of calls.", "anchors": ["src/src/structure/QueryManager.cpp: getMarginalDistribution, getMAP", "src/src/structure/EvidenceManager.cpp: setEvidence", "src/header/EasyFactorGraph/io/json/Importer.h: importFromJson", "src/header/EasyFactorGraph/io/xml/Importer.h: importFromFile"]}
{"id": "C61", "title": "What a model contains when an import returns", "statement": "When the import of a json or xml document returns, every factor of the document is in the model, once, with the variables, the values and the weight written, constant or tunable as written and sharing its weight with the factor named; no other factor is new; the variables of the document that are observed are observed with the values written. A document that gives the same variable twice, or a factor on a variable that it does not declare, is refused with an exception.", "quantifier": "every document, every model reachable by any history of calls, every order of the sets, every order of the multimaps", "why_tests_cant": "All documents cannot be tried; a factor skipped or inserted with wrong data only for some shapes of documents is not seen by the round trips of a few models.", "anchors": ["src/src/io/json/Importer.cpp: importVariable, importGroup, importFactor, importPotential, Importer::convert", "src/src/io/xml/Importer.cpp: importVariable, importGroup, importFactor, importPotential, Importer::convert", "src/src/io/Utils.cpp: ImportHelper::importConst, importTunable, importCumulatedTunable", "src/header/EasyFactorGraph/io/json/Importer.h: importFromJson, set_evidences", "src/header/EasyFactorGraph/io/xml/Importer.h: importFromFile"]}
{"id": "C62", "title": "Answers after a training", "statement": "After a training, also one that ends with an exception, every query is answered with the weights the training left in the model, gradients are computed with them, and a further training starts from them, whatever was asked, observed or trained before.", "quantifier": "every random field and conditional random field, every sequence of calls and of trainings with any trainer, training set, percentage, number of threads and random choice", "why_tests_cant": "A training is an arbitrary interleaving of changes of the weights and of gradients, each of which leaves cached messages in the model; the answer that follows may use any of them.", "anchors": ["src/src/trainable/ModelTrainer.cpp: train_model", "src/src/trainable/FactorsTunableManager.cpp: setWeights", "src/src/model/RandomField.cpp: getWeightsGradient_", "src/src/structure/QueryManager.cpp: getMarginalDistribution"]}
