import json
P=[]
def p(title,statement,quant,why,anchors):
    P.append(dict(id="C%02d"%(len(P)+1),title=title,statement=statement,quantifier=quant,why_tests_cant=why,anchors=anchors))
S="src/src/"; H="src/header/EasyFactorGraph/"
p("Joint domain enumeration","Iterating a GroupRange from its initial value until it equals the end visits every element of the joint domain of the variables exactly once, in lexicographic order (last variable fastest), starts at <0,..,0>, and terminates; incrementing a finished range throws.","every non empty list of positive sizes","The number of lists of sizes is infinite; tests only check a few groups.",[S+"categoric/GroupRange.cpp: GroupRange::operator++",H+"categoric/GroupRange.h: for_each_combination"])
p("Linear index is a bijection that agrees with the enumeration","The index used to store a combination in a dense factor is a bijection between the valid combinations and 0..size-1 and the i-th element of the range has index i.","every non empty list of positive sizes, every valid combination","Collisions can appear for any shape; cannot be enumerated.",[S+"factor/Function.cpp: CombinationHasher"])
p("A factor behaves as a total map","After any sequence of successful set/clear calls, the image of a combination is the last value set for it after the last clear, or 0 if there is none, whatever switch between the sparse and the dense representation happened; the enumeration of all combinations with their images agrees with the individual images.","every group, every sequence of set/clear operations, every combination","The representation switch depends on the whole history of insertions.",[S+"factor/Function.cpp: Function::set, Function::findImage",H+"factor/Function.h: forEachCombination, clear"])
p("Invalid images are rejected without effect","Setting an image throws exactly when the value is negative, the combination has the wrong length, or some entry is not smaller than the size of the matching variable, and in this case every image is unchanged.","every factor, combination and value","All combinations and all values cannot be tried.",[S+"factor/Mutable.cpp: Mutable::set"])
p("Non-null enumeration covers the support","The enumeration of the non null combinations reports every combination with a non zero image exactly once with the right image, reports no combination twice, and every other reported combination has image 0.","every factor reachable by set/clear","Depends on the history of sets, which decides the representation.",[H+"factor/Function.h: forEachNonNullCombination"])
p("Correlating factors","A simply correlated factor has image 1 on combinations with all equal values and 0 elsewhere; a simply anti-correlated one has the complement; both constructors throw exactly when the group has one variable or variables of different sizes.","every group of variables","Arbitrary number of variables and sizes.",[S+"factor/Factor.cpp: SimplyCorrelatedFunction, SimplyAntiCorrelatedFunction"])
p("Merging factors is the pointwise product","The factor built from a collection of factors is defined on the union of their variables and its image at any combination is the product of the images of the single factors at the corresponding sub-combinations, whatever the order of the collection and of the internal sets; it throws when two distinct instances of the same variable are involved.","every non empty collection of factors, every iteration order of the hash containers","Iteration order of unordered containers is unspecified, and collections are unbounded.",[S+"factor/Factor.cpp: gather_variables, Factor::Factor(const std::vector<const Immutable*>&)"])
p("Changing the order of the variables preserves the factor","cloneWithPermutedGroup returns a factor with the requested order of variables whose image at every combination is the raw image of the original at the un-permuted combination; it throws exactly when the new group is not a permutation of the original variables.","every factor, every new group","Number of permutations and combinations is unbounded.",[S+"factor/Factor.cpp: compute_new_positions, get_permuted, cloneWithPermutedGroup"])
p("Sub-combination lookup","A finder built for a factor inside a bigger group returns, at each combination of the bigger group, the image of the factor at the values of its own variables; building it throws exactly when some variable of the factor is missing from the bigger group (or this is shorter).","every factor, bigger group, combination","Unbounded groups.",[S+"factor/ImageFinder.cpp: get_indices, extractSmallerCombination"])
p("Exponential factors","An exponential factor evaluates to exp(weight*raw image) at every combination, where raw images are those of the factor it is built from; changing the weight changes only the weight; copies have the same images and weight and do not alias.","every factor, every weight, every combination","Values and shapes are unbounded.",[S+"factor/FactorExponential.cpp: ExponentialFunction"])
p("Probabilities of a factor","getProbabilities returns one value per combination, in the enumeration order; the values are non negative, sum to 1 and are proportional to the images; they are uniform when all images are 0.","every factor with non negative images","Real valued images, unbounded domains.",[S+"factor/Immutable.cpp: Immutable::getProbabilities"])
p("Group uniqueness","A group never contains the same variable (name and size) twice: construction and add throw exactly in this case (and for an empty group), otherwise order is kept. The documented stronger claim, that names are unique, is checked too.","every list of variables","Unbounded lists of variables.",[S+"categoric/Group.cpp: Group::Group, Group::add",H+"categoric/Group.h"])
p("Replacing the variables of a group","replaceVariables either throws leaving the group unchanged or replaces the variables preserving every size; it never has undefined behaviour.","every group, every list of new variables","Malformed arguments are unbounded.",[S+"categoric/Group.cpp: Group::replaceVariables"])
p("Set difference of variables","get_complementary returns exactly the variables of the entire set that are not in the subset.","every pair of sets","Unbounded sets.",[S+"categoric/Group.cpp: operator-=, get_complementary"])
p("Marginalised evidence","The unary factor obtained by fixing a variable of a binary factor to an observed value has, at each value of the other variable, the image of the binary factor at that pair.","every binary factor, both positions of the observed variable, every value","Unbounded sizes and values.",[S+"structure/SpecialFactors.cpp: Evidence"])
p("Belief messages","The SUM (MAP) message sent through a binary factor has, at each value b of the receiver, the sum (maximum) over the values a of the sender of the sender belief at a times the factor image at (sender=a, receiver=b).","every binary factor, both orders of its variables, every sender belief","Unbounded sizes and values; symmetric factors hide transposition errors.",[S+"structure/SpecialFactors.cpp: fill_message, get_positions, MessageSUM, MessageMAP"])
p("Merged unaries","The combination of several unary factors of a variable is proportional, with a positive constant, to the product of their images, and has maximum 1; factors of other variables are rejected.","every non empty list of unary factors whose product is not identically null","Unbounded lists and real values.",[S+"structure/SpecialFactors.cpp: MergableFunction, MergedUnaries"])
p("Every variable is either hidden or observed","At any time the hidden variables and the observed variables are disjoint and their union is the set of variables of the model; each variable is inserted once and keeps the instance it was inserted with.","every sequence of insertions, evidence settings and removals","History dependent: unboundedly many sequences of calls.",[S+"structure/bases/StateAware.cpp: getHiddenVariables, getObservedVariables",S+"structure/bases/FactorsAware.cpp: findOrMakeNode",S+"structure/EvidenceManager.cpp"])
p("Clusters are the connected components","After any history the clusters are exactly the connected components of the graph that has the hidden variables as nodes and the binary factors between hidden variables as edges.","every sequence of insertions, evidence settings and removals, every iteration order of hash containers","Incremental maintenance depends on the whole history.",[S+"structure/Types.cpp: compute_clusters",S+"structure/EvidenceManager.cpp: setEvidence, resetState",S+"structure/bases/FactorsAware.cpp: addBinaryDistribution"])
p("Evidence store","The evidences reported are the last values set and not removed since; setting an evidence fails, without effect, exactly when the variable is unknown or the value is out of range.","every sequence of setEvidence / removeEvidence / removeAllEvidences","History dependent.",[S+"structure/EvidenceManager.cpp: EvidenceSetter::setEvidence, EvidenceRemover"])
p("Insertion of factors","Inserting a factor either adds exactly that factor to the model or throws; it throws exactly when the pointer is null, the factor was already inserted, it has neither one nor two variables, one of its variables equals another instance already in the model, or its two variables are already connected; the other factors are unaffected. A failed insertion should leave the model unchanged.","every model state and every factor","History dependent, unbounded models.",[S+"structure/bases/FactorsAware.cpp: addDistribution, addUnaryDistribution, addBinaryDistribution"])
p("Exact marginals on trees","When the cluster of a hidden variable is a tree, getMarginalDistribution returns the conditional probability given the current evidences: the normalised sum, over all the assignments of the hidden variables, of the product of the images of all the factors of the model.","every reachable model whose clusters are trees, every set of evidences with positive probability, every variable, every iteration order and number of threads","Infinite number of models and of real valued factors; requires induction over the graph.",[S+"structure/bases/BeliefAware.cpp: message_passing, propagateBelief",S+"structure/QueryManager.cpp: getMarginalDistribution",S+"structure/Types.cpp: updateMessage, updateConnectivity"])
p("Exact MAP on trees","When the cluster of a hidden variable is a tree, getMAP returns a value that maximises the max-marginal (the maximum over the other hidden variables of the product of all factors); when the most probable assignment is unique getHiddenSetMAP returns it.","every reachable model whose clusters are trees, every evidence set, every variable","Infinite number of models and of real valued factors.",[S+"structure/QueryManager.cpp: getMAP, getHiddenSetMAP, find_max",S+"structure/SpecialFactors.cpp: MessageMAP"])
p("Joint marginals of a subgroup","getJointMarginalDistribution of a subgroup returns a factor, with the variables in the requested order, proportional to the marginal joint distribution of these variables conditioned to the evidences.","every reachable tree model, every subgroup","Unbounded models and subgroups.",[S+"structure/QueryManager.cpp: getJointMarginalDistribution"])
p("Observed variables in queries","The marginal distribution of an observed variable is 1 at the observed value and 0 elsewhere, and its MAP is the observed value.","every reachable model, every evidence","History dependent.",[S+"structure/QueryManager.cpp: getMarginalDistribution, find_max"])
p("Queries do not disturb the model","Queries change neither variables, evidences, factors nor clusters, and asking the same query again, possibly interleaved with other queries, returns the same answer.","every reachable model, every sequence of queries","Caching makes the answer depend on the history of calls.",[S+"structure/bases/BeliefAware.cpp: wouldNeedPropagation, propagateBelief",H+"structure/QueryManager.h: checkPropagation_"])
p("Answers depend only on the current model","Marginals after any history equal those of a model freshly built with the same factors and evidences (no stale cache).","every history of insertions, evidence changes, weight changes and queries","History dependent: caches and incremental updates.",[S+"structure/EvidenceManager.cpp: removeEvidence_",S+"trainable/FactorsTunableManager.cpp: setWeights",S+"structure/bases/BeliefAware.cpp: propagateBelief"])
p("Tree detection","After a propagation, a cluster is flagged as a tree exactly when the graph of its hidden variables has no cycle, the reported sizes are the numbers of variables of the clusters.","every cluster graph","Unbounded graphs.",[S+"structure/bases/BeliefAware.cpp: message_passing"])
p("Calls terminate","Every call of the API terminates: a belief propagation makes at most one computation per directed edge on trees and at most max_iterations sweeps on loopy clusters, and the calls that insert factors, set weights, compute gradients, draw samples, build train sets and train a model terminate too, on graphs, random fields and conditional random fields.","every model state, every iteration order, every schedule, every sequence of random numbers","Termination over all graphs.",[S+"structure/bases/BeliefAware.cpp: message_passing",S+"structure/BaselineLoopyPropagator.cpp: propagateBelief, compute_loopy_order"])
p("Loopy batches","The batches of messages used by the multi-threaded loopy propagation partition all the messages, and no message of a batch depends on another message of the same batch.","every cluster graph","All graphs and all greedy choices.",[S+"structure/BaselineLoopyPropagator.cpp: compute_loopy_order"])
p("Thread pool runs every task exactly once","parallelFor returns only after every task was executed exactly once, task k by thread (k mod size); it never deadlocks; the shutdown joins all workers.","every number of tasks and threads, every interleaving","All schedules cannot be tested.",[S+"structure/bases/PoolAware.cpp: process_tasks_in_parallel, Pool::parallelFor, Pool::Worker::Worker, Pool::~Pool"])
p("Results do not depend on the schedule","Messages of a batch, and samples of a batch, computed concurrently give the same result as the sequential execution in list order, for every interleaving of the threads.","every batch, every interleaving","All schedules cannot be tested.",[S+"structure/bases/BeliefAware.cpp: message_passing",S+"structure/BaselineLoopyPropagator.cpp: compute_loopy_order",S+"structure/GibbsSampler.cpp: make_sampling_tasks"])
p("Invalid number of threads","A call with 0 threads throws and leaves the model usable.","every model state","State dependent error path.",[S+"structure/bases/PoolAware.cpp: setPoolSize, Pool::Pool"])
p("Gibbs samples are well formed","makeSamples returns the requested number of combinations; each has one entry per variable in the order of getAllVariables(), every entry is smaller than the size of its variable, and observed variables always have their evidence value.","every model, every random engine, every context","Random engines and histories are unbounded.",[S+"structure/GibbsSampler.cpp: makeSamples, makeSamplerNodes, make_sampling_task"])
p("Discrete sampling","Sampling from a discrete distribution with a uniform draw s returns the first index whose cumulative probability is at least s, hence index k exactly for draws in an interval of length p_k, and never an index with null probability unless s is on the boundary.","every distribution, every draw","Continuous inputs.",[S+"structure/GibbsSampler.cpp: sampleFromDiscrete"])
p("Gibbs conditional","Each sampling step draws a variable from its exact conditional distribution given the current values of all the other variables.","every model (also loopy), every current combination","Unbounded models.",[S+"structure/GibbsSampler.cpp: make_sampling_task, makeSamplerNodes"])
p("Weights round trip","getWeights after setWeights returns the same vector; all factors of a sharing group have the same weight; the number of weights is the number of tunable clusters; a vector of the wrong size is rejected without effect.","every history of tunable insertions, every vector","History dependent.",[S+"trainable/FactorsTunableManager.cpp: getWeights, setWeights, addTunableFactor"])
p("Failed tunable insertion","Adding a tunable factor that refers to an unknown sharing group throws and leaves the model unchanged.","every model, every group","State dependent error path.",[S+"trainable/FactorsTunableManager.cpp: addTunableFactor, findTuner"])
p("Gradient of the likelihood","For a tree random field with no evidence each component of the gradient is the derivative of the mean log-likelihood of the training set with respect to the corresponding weight.","every tree random field, every training set, every weight vector","Real analysis over all models.",[S+"model/RandomField.cpp: getWeightsGradient_",S+"trainable/tuners/BaseTuner.cpp",S+"trainable/tuners/UnaryTuner.cpp",S+"trainable/tuners/BinaryTuner.cpp"])
p("Order of the evidences of a conditional random field","setEvidences assigns the k-th value to the k-th variable of getObservedVariables().","every conditional random field, every iteration order of hash containers","Iteration orders are unspecified.",[S+"model/ConditionalRandomField.cpp: setEvidences, makeTrainSet"])
p("Training samples of a conditional random field","makeTrainSet visits evidence combinations without undefined behaviour for every percentage in (0,1], never increments a finished range.","every number of combinations and percentage","Arithmetic edge cases.",[S+"model/ConditionalRandomField.cpp: makeTrainSet"])
p("Training set","A TrainSet accepts exactly the non empty lists of combinations of equal length; a sub-set iterator visits only elements of the set, in number floor(percentage*size).","every list of combinations, every percentage, every random source","Unbounded, random.",[S+"trainable/TrainSet.cpp"])
p("Import of a training set","import_train_set returns the combinations written in the file, one per line.","every file content","All files cannot be tried.",[S+"io/TrainSetImport.cpp: import_train_set",S+"io/Utils.cpp: parse_combination_image",S+"io/Utils.h: for_each_line"])
p("Import of factor values","import_values applies exactly the set operations described by the lines of the file, also when the file ends with a newline.","every file content","All files cannot be tried.",[S+"io/Utils.cpp: import_values",S+"io/Utils.h: for_each_line"])
p("JSON round trip","Exporting a model to JSON and importing it into an empty model gives the same variables and factors (images equal up to the printed precision), the same sharing of weights.","every model","All models cannot be tried.",[S+"io/json/Exporter.cpp",S+"io/json/Importer.cpp"])
p("Copy of a model","The copy constructors of the models give a model with the same factors, the same evidences and hence the same distribution, independent of the original.","every model","Unbounded.",[S+"model/Graph.cpp",S+"structure/FactorsConstManager.cpp: absorbConstFactors",S+"trainable/FactorsTunableManager.cpp: absorbTunableClusters"])
p("Lookup of variables by name","findVariable returns the variable with the given name, or throws when there is none.","every history","History dependent.",[S+"structure/bases/StateAware.cpp: findVariable"])
p("Evidence removal restores the previous model","Setting evidences and then removing them gives back the model before: same clusters, same connections, same marginals.","every model, every set of evidences, every order of removal","History dependent.",[S+"structure/EvidenceManager.cpp: removeEvidence_, removeEvidences, removeAllEvidences, resetState"])
p("Answers after a change of the weights","After setWeights every query and every gradient is computed with the new weights.","every random field, every weight vector, every sequence of insertions, evidence changes and queries before and after","Cached intermediate results make the answer depend on the history.",[S+"trainable/FactorsTunableManager.cpp: setWeights",S+"structure/Types.cpp: Node::updateMerged",S+"structure/EvidenceManager.cpp: setEvidence"])
p("Structure of a conditional random field","Once built, a conditional random field never changes its variables, its factors, the sharing of the weights, nor the set of its observed variables, whatever calls are made on it, including the calls that throw.","every conditional random field, every sequence of calls","History dependent.",[H+"model/ConditionalRandomField.h: ConditionalRandomField",S+"model/ConditionalRandomField.cpp"])
p("Gradient of a conditional random field","Each component of the gradient of a conditional random field is the derivative, with respect to the corresponding weight, of the mean of the logarithms of the probabilities of the combinations of the training set given the values of the observed variables in the combination.","every conditional random field whose hidden variables form trees, every training set, every weight vector, every sequence of calls before","Real analysis over all models, history dependent caches.",[S+"model/ConditionalRandomField.cpp: getWeightsGradient_, find_positions, replaceIfNeeded",S+"model/HiddenObservedTuner.cpp",S+"trainable/tuners/UnaryTuner.cpp",S+"trainable/tuners/BinaryTuner.cpp"])
p("Training","Training a model has on its weights the effect of running the trainer on a vector of parameters that starts from the weights of the model, where each gradient asked for is the opposite of the gradient of the mean (conditional) log-likelihood of the training set, or of a random subset of it with the wanted percentage of elements drawn again for each question. The model ends with the parameters set last, its factors, variables, sharing of the weights do not change, and it throws exactly when the trainer throws or sets a vector of another size.","every trainer, every random field and conditional random field without cycles, every training set, percentage, number of threads, every random choice","The trainer is arbitrary code; the effect of a step depends on the caches left by the steps before.",[S+"trainable/ModelTrainer.cpp: TrainSetWrapper, ModelWrapper, train_model",H+"trainable/ModelTrainer.h: TrainInfo, train_model"])
p("XML round trip","A model exported to an XML file and imported again from it has the same variables, evidences, factors, weights and sharing of the weights (up to the printing of the numbers), whatever the order in which the multimaps of the XML library keep the attributes and the tags with the same name.","every model reached with any sequence of calls, every order of the hash containers and of the multimaps","All models and orders cannot be tried; the order of the elements of a multimap is decided by the standard library.",[S+"io/xml/Exporter.cpp: printVariable, printGroup, printPotential, printExpPotential, Exporter::convert",S+"io/xml/Importer.cpp: importVariable, importFactor, importPotential, Importer::convert",H+"io/xml/Importer.h: Importer::importFromFile"])
p("No undefined behaviour","Calls on a graph (insertions, evidences, propagation, queries) never read out of bounds, follow a null or dangling pointer or run for ever: each returns, throws, or computes 0/0. Queries about a variable of the model never throw.","every sequence of calls, every set of factors with any nonnegative values, every iteration order of the hash containers, every number of threads and schedule","Undefined behaviour depends on the history, the order of the containers and the schedule; a test can pass although the behaviour is undefined.",[S+"structure/QueryManager.cpp: getMarginalDistribution, getMAP, getHiddenSetMAP, getJointMarginalDistribution",S+"structure/bases/BeliefAware.cpp: propagateBelief",S+"structure/EvidenceManager.cpp: setEvidence, removeEvidence",S+"structure/bases/StateAware.cpp",S+"structure/Types.cpp"])
p("The number of threads does not change the answers","A query asked with a number of threads gives the same answer as the same query asked with another number of threads on the same model: the parameter only affects the time that the query takes.","every history of calls, every query, every pair of numbers of threads, every schedule of the threads, every order of the hash containers","Tests compare a few numbers of threads on a few graphs.",[S+"structure/BaselineLoopyPropagator.cpp: BaselineLoopyPropagator::propagateBelief",S+"structure/bases/BeliefAware.cpp: BeliefAware::propagateBelief"])
p("Absorption skips the factors that cannot be inserted","Absorbing a list of factors (constant, tunable, or clusters of tunable factors) never throws: each factor that an insertion would reject is skipped, the others are inserted as if one at a time, in the order of the list. A cluster is inserted up to its first rejected factor; if the first one is rejected the whole cluster is skipped. With copies, the model gets new factors with the same variables and values and the given ones are left as they were.","every history of calls, every list of factors, with or without copies","Rejections depend on what the model has when each factor is reached, including what the same call has inserted: tests absorb a few lists that are all accepted.",[H+"structure/FactorsConstManager.h: absorbConstFactors",H+"trainable/FactorsTunableManager.h: absorbTunableFactors",S+"trainable/FactorsTunableManager.cpp: absorbTunableClusters"])
p("The samples follow the distribution of the model","The samples of makeSamples tend to be distributed as the model says: when the numbers drawn are uniform, the distribution of the model is kept by the updates of the sampler, and whatever the starting values the probability of every event after n sweeps over the hidden variables differs from its probability given the evidences by an amount that vanishes when n grows.","every model, every evidence, every event, every number of sweeps, every order of the variables, every number of threads","A statement on limits and on all the events; tests compare frequencies with a tolerance on a few small graphs.",[S+"structure/GibbsSampler.cpp: GibbsSampler::makeSamples, evolve_samples, UniformSampler::sampleFromDiscrete",H+"structure/GibbsSampler.h: GibbsSampler::SamplesGenerationContext"])
p("Answers of a conditional random field","A query on a conditional random field just made, or whose evidences were set with setEvidences, gives the distribution of the variables asked given exactly the values of the evidences and with the current weights, whatever calls were made before (other evidences, changes of the weights, gradients, samples, training sets, calls that threw).","every conditional random field, every history of calls on it, every list of values","History dependent: stale messages show only after particular sequences of calls.",[S+"model/ConditionalRandomField.cpp: setEvidences, ConditionalRandomField",H+"structure/QueryManager.h: getMarginalDistribution, getMAP, getJointMarginalDistribution"])
p("Importing any document into any model","Importing a json or xml file, well formed or not, into a model that already has variables and factors never removes or changes what was there: when the import returns or throws, the variables, factors, weights and evidences of before are unchanged, except the evidences of the variables that the document observes by name; what is new is on new variables named in the document, apart from the old ones; the model can be used as before. The import always ends, and reads nothing out of bounds when the document has its compulsory members and its integers fit an int.","every model reachable by any history of calls, every json value and every tree of xml tags, every content of the files of values, every order of the sets","Malformed documents are infinitely many; the state left by an exception in the middle of an import depends on the document and on the history of the model.",[H+"io/json/Importer.h: importFromJson, set_evidences",H+"io/xml/Importer.h: importFromFile",S+"io/json/Importer.cpp: Importer::convert",S+"io/xml/Importer.cpp: Importer::convert",S+"io/Utils.cpp: ImportHelper"])
p("What is not linked to a variable does not change its distribution","Two models in which the variables linked to v (by factors between hidden variables) have the same factors, with the same weights and the same evidences on the variables of these factors, give the same answers to the queries about v, whatever the rest of the models and their histories. In particular importing a document on other variables, or observing a variable with no factor in common with those linked to v, changes no answer about v.","every pair of models and of histories, every variable, every number of threads, every order of the sets","It quantifies over pairs of models and histories; the influence of a distant factor can be a stale message seen only after some sequence of calls.",[S+"structure/QueryManager.cpp: getMarginalDistribution, getMAP",S+"structure/EvidenceManager.cpp: setEvidence",H+"io/json/Importer.h: importFromJson",H+"io/xml/Importer.h: importFromFile"])
p("What a model contains when an import returns","When the import of a json or xml document returns, every factor of the document is in the model, once, with the variables, the values and the weight written, constant or tunable as written and sharing its weight with the factor named; no other factor is new; the variables of the document that are observed are observed with the values written. A document that gives the same variable twice, or a factor on a variable that it does not declare, is refused with an exception.","every document, every model reachable by any history of calls, every order of the sets, every order of the multimaps","All documents cannot be tried; a factor skipped or inserted with wrong data only for some shapes of documents is not seen by the round trips of a few models.",[S+"io/json/Importer.cpp: importVariable, importGroup, importFactor, importPotential, Importer::convert",S+"io/xml/Importer.cpp: importVariable, importGroup, importFactor, importPotential, Importer::convert",S+"io/Utils.cpp: ImportHelper::importConst, importTunable, importCumulatedTunable",H+"io/json/Importer.h: importFromJson, set_evidences",H+"io/xml/Importer.h: importFromFile"])
with open("/verif/properties.jsonl","w") as f:
    for x in P: f.write(json.dumps(x)+"\n")
print(len(P))
