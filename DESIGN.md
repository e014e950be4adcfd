# Formal model of Easy-Factor-Graph: design

The C++ code in `/repo` is modelled as total, computable Gallina functions in
`rocq/theories`. The properties are those of `properties.jsonl`; the theorems
that settle them are listed in `MANIFEST.json`.

## Conventions of the model

* **Outcomes.** Every modelled C++ function returns a value of type `res A`
  with constructors `Ok a` (normal return), `Throw` (a C++ exception is
  thrown), `UB` (out of bounds access, null or dangling dereference, division
  by zero on integers, ...), `Nan` (a float becomes inf/NaN because of a
  division by zero) and `Loop` (the C++ loop does not terminate). Undefined
  behaviour is therefore never hidden behind a default value. Functions that
  change the model return the outcome *and* the new state, because a C++
  exception does not roll the state back.
* **Numbers.** The model is written over any set of numbers with the operations
  of the code (record `num`). The theorems about *values* (exact marginals, MAP,
  gradients, probabilities, sampling) suppose the laws of an ordered field
  (`num_ok`) and a positive `expf`: for them rounding, overflow and underflow are
  not modelled. The theorems about the structure of a model, evidences,
  insertions, exceptions, undefined behaviour, termination, sharing of the
  weights, absorption, copies, text files (about 110 of the theorems of
  `MANIFEST.json`, those with no hypothesis `num_ok` in their type) hold for
  every `num`, whatever the operations do. Three instances are given: canonical
  rationals `Qc` (executable: examples and counterexamples are run by
  `vm_compute`), the reals `R` (gradient theorem, with the real exponential) and
  the single precision floats of IEEE 754 (`FloatNum.v`, operations of the
  standard library's `SpecFloat`, no law of `num_ok`; `P_Float.v` states some of
  the theorems on them). Differences left between `FloatNum` and the program:
  the order of the operations inside one expression is the one of the source
  (no fused multiply-add, no extended precision), `static_cast<float>(n)` is a
  sum of ones (exact up to 2^24), the constant `1e-3` is 1/1000 (the same float).
* **`size_t`** is modelled by `nat`: wrap-around at 2^64 is not modelled.
* **Pointers.** A `VariablePtr` is a record (address, name, size): pointer
  comparison compares the whole record, value comparison (`Variable::operator==`,
  used by `SmartSet`/`SmartMap`) compares name and size only. A `Node*` is the
  index of creation of the node. A `shared_ptr` to a factor is an index in a
  heap of factor objects, so that a weight change is seen by every alias.
* **Hash containers.** The iteration order of `unordered_set/map` is
  unspecified: the model takes an environment with arbitrary functions that
  permute the keys, and the theorems hold for all of them.
* **Threads.** The pool is a small-step transition system over all the
  interleavings (sequentially consistent atomics). Batches of concurrent tasks
  are proved to be independent, which justifies that the rest of the model runs
  the tasks of a batch in list order.

## Files (rocq/theories)

Three kinds of files:

* *model*: definitions only, each with a citation of the lines it models;
* *specification*: small files that do not refer to the model (or only to its
  data types), in which the properties are stated;
* *proofs*: lemmas. The property theorems are in the `P_*.v` files only, each
  one followed by `Print Assumptions` and by examples showing that a concrete
  non trivial case meets its hypotheses.

| model | C++ sources |
|-------|-------------|
| `Res.v` | outcomes: return, exception, undefined behaviour, NaN, endless loop |
| `Num.v`, `RealNum.v`, `FloatNum.v` | float, expf |
| `Categoric.v` | `categoric/Variable`, `Group`, `GroupRange` |
| `Func.v` | `factor/Function`, `Immutable`, `Mutable`, `ImageFinder`, `Factor`, `FactorExponential` |
| `Special.v` | `structure/SpecialFactors` |
| `Graph.v` | `structure/Types`, `EvidenceManager`, `bases/StateAware`, `bases/FactorsAware` |
| `Belief.v` | `structure/BaselineLoopyPropagator`, `bases/BeliefAware`, `Types` (propagation part), `bases/PoolAware` (sizes) |
| `Query.v` | `structure/QueryManager` |
| `Pool.v`, first part of `PoolMsg.v` and `GibbsPool.v` | `bases/PoolAware`: workers, `parallelFor`; the tasks as sequences of memory accesses |
| `Gibbs.v` | `structure/GibbsSampler` |
| `Train.v` | `trainable/TrainSet`, `FactorsTunableManager`, `tuners/*`, `structure/FactorsConstManager`, `model/RandomField`, `model/Graph` |
| `CRF.v` | `model/ConditionalRandomField`, `HiddenObservedTuner` |
| `Trainer.v` | `trainable/ModelTrainer` |
| `IO.v` | `io/Utils` (parsing), `io/TrainSetImport` |
| `Json.v` | `io/json/Exporter`, `io/json/Importer`, `io/Utils` (`ImportHelper`) |
| `Xml.v` | `io/xml/Exporter`, `io/xml/Importer` |
| `PoolMsg.v`, `GibbsPool.v`, `GradientPool.v` (first part) | the accesses to the memory of the tasks that update the messages, sample, compute the gradient |

| specification | contents |
|---------------|----------|
| `Combs.v` | combinations, lexicographic order, mixed radix index |
| `GraphSpec.v` | observable state of a model and effect of the mutating calls |
| `BeliefSpec.v` | assignments, weight of an assignment, marginals, MAP, cycles of the hidden variables |
| `JointSpec.v` | joint distributions |
| `SafeSpec.v`, `FieldSafeSpec.v`, `CondSafeSpec.v` | uses without undefined behaviour (graphs, random fields, conditional random fields) |
| `MarkovSpec.v` | probabilities of the moves of the Gibbs chain, events |
| `AbsorbSpec.v` | lists of factors absorbed by a model |
| `ImportSpec.v` | documents readable without undefined behaviour, what an import may change in a model |
| `CompleteSpec.v` | the factors, variables, evidences that a document describes; a factor of the model is the one described |
| `SeparateSpec.v` | two models that are the same around a variable |
| start of `P_CondAnswers.v` and `P_CondCopy.v` | the model observed at given values, what is asked of the source of a conditional random field |
| `GibbsSpec.v` | Gibbs chain on assignments |
| `TrainSpec.v`, start of `Likelihood.v` | features, expectations, log-likelihood |
| `CRFSpec.v` | the model given the values of a combination, conditional log-likelihood |
| `TrainerSpec.v` | a training on a vector of parameters, without any model |
| `TextSpec.v` | what a text file describes |
| `Hist.v`, `TrainHist.v`, `CRFHist.v` | histories of calls of the API (any sequence, any iteration orders, going on after exceptions) |

## Trusted base

* The kernel of Coq 8.16.1 (`coqchk` is run on all the files), and its
  `vm_compute` for the examples and refutations on concrete models.
* The reading of the C++ code made by the model files (previous table), with the
  conventions above: exact arithmetic in place of floats in the theorems that
  suppose `num_ok`, unbounded `size_t`, sequentially consistent atomics.
* The oracles, that are parameters of the sections (never axioms): iteration
  orders of the hash containers, schedule of the tasks, random numbers, `expf`,
  `floorf`, `ceil`, `rand`, `std::to_string(float)`, `std::atof`. The theorems
  hold for all of them, under the laws stated in each theorem (e.g. `floorf`
  rounds down, `expf` is positive).
* Axioms. `Print Assumptions` gives "Closed under the global context" for all
  the theorems of `MANIFEST.json` except `C39_gradient_is_derivative_partial`,
  `C51_gradient_is_derivative_partial`, `C52_objective` and
  `C52_conditional_objective`, which are about the real numbers of the
  standard library and list its axioms:
  `ClassicalDedekindReals.sig_not_dec`, `ClassicalDedekindReals.sig_forall_dec`,
  `FunctionalExtensionality.functional_extensionality_dep`,
  `Classical_Prop.classic`. No axiom is added, no kernel check is switched off.

## What is not modelled

* In the theorems that suppose `num_ok`: rounding, overflow, underflow,
  infinities of `float` (a division by zero is the outcome `Nan`). Bounds on the
  rounding errors of the answers are not proved.
* Wrap-around of `size_t`, exhaustion of the memory, `std::bad_alloc`.
* Relaxed memory effects: the code uses default (sequentially consistent)
  atomics; the plain accesses to the messages and samples of a batch are
  interleaved one by one, and a data race on them is excluded by the
  independence theorems (C30, C32).
* The files themselves (a stream that cannot be opened is an exception), the text of
  the JSON and XML files (libraries `nlohmann::json` and `XML-Parser`, not in the
  repository): the JSON values and the XML tags are modelled as trees. For XML, the
  tag parsed from a printed one is assumed to have the same texts, with the
  attributes and tags of the same name inserted in the order in which the multimap
  visited them (relation `reads` of `Xml.v`); that order is arbitrary (`place`).
* The optimisers of the external library TrainingTools used by `ModelTrainer`: a
  trainer is any program that reads and sets the parameters and asks for gradients
  (`Trainer.v`). The conversions between `float` and the `double` of that library.
* `misc/` helpers (`Cache`, `SmartMap`, `Visitor`, ...) are modelled by their
  effect where they are used.
* The destructors, apart from the shutdown of the pool.

## Plan per property

| id | what is modelled | how it is proved |
|----|------------------|------------------|
| C01 | `GroupRange`, `for_each_combination` | induction on the list of sizes: the odometer enumerates the lexicographic product |
| C02 | `CombinationHasher` | mixed radix: arithmetic induction, agreement with C01 |
| C03 | `Function` sparse/dense containers, `set`, `clear`, `findImage`, `forEachCombination` | refinement to a finite map, induction over the sequence of operations |
| C04 | `Mutable::set` | case analysis |
| C05 | `forEachNonNullCombination` | from the representation invariant of C03 |
| C06 | correlated constructors | from C02/C03 |
| C07 | `gather_variables`, merging constructor | C01 + C09, induction over the factors, permutation invariance |
| C08 | `cloneWithPermutedGroup` | permutation of positions is a bijection |
| C09 | `ImageFinder` | induction over the indices |
| C10 | `FactorExponential` | from C03 |
| C11 | `getProbabilities` | field algebra |
| C12 | `Group` | induction; the claim on names alone is refuted by a witness if false |
| C13 | `replaceVariables` | case analysis; UB refuted by a witness if reachable |
| C14 | `operator-=` | induction |
| C15 | `Evidence` | from C01/C03 |
| C16 | `fill_message`, `MessageSUM`, `MessageMAP` | exact formula of what is computed; claim proved for symmetric factors, refuted in general if false |
| C17 | `MergableFunction`, `MergedUnaries` | induction over the factors, field algebra |
| C18-C21 | state of the model, insertions, evidences, clusters | invariant by induction over any sequence of operations; connected components by induction over `compute_clusters` |
| C22-C25 | propagation and queries | message passing computes each directed edge once, in dependency order; leaf elimination induction over the graph in an abstract semiring (sum-product and max-product); refinement to the brute force sum over all assignments |
| C26, C27, C48 | caches | cache coherence invariant over histories; refutations where the code leaves stale caches |
| C28, C29 | message passing, loopy loop; calls on fields, samples, trainings | acyclicity by walk/pigeonhole argument; fuel shown sufficient; the loops of the other calls have fuel shown sufficient by the sizes of the model (`Halt.v`, `FieldHalt.v`) |
| C30 | greedy batches | loop invariant |
| C31 | `Pool` | invariant of the transition system, progress measure |
| C32 | batches of messages, of samples, of components of the gradient | commutation of independent tasks, any interleaving of their accesses |
| C33 | `setPoolSize` | state machine of the optional pool; refutation if false |
| C34-C36 | `GibbsSampler` | invariant over steps for every random engine; C34 again without laws of the numbers (`SampleSafe.v`) |
| C37, C38 | tuners, weights | invariant over tunable insertions |
| C39 | gradient | derivative of a finite log-sum-exp over R, plus C22 |
| C40, C41 | `ConditionalRandomField` | iteration order as arbitrary permutation; arithmetic |
| C42 | `TrainSet` | case analysis, oracle for `rand` |
| C43, C44 | line/token parsing, imports | induction over the text; refutations if false |
| C45 | JSON export/import on JSON trees; the printing and parsing of floats are oracles | the import is a construction from a blueprint (`Plan.v`): its result is determined by the factors inserted; refutations for names, quotes, small values, lone variables, sharing; `P_CondFiles.v`: the same for conditional random fields, and with C61 and C46 a conditional random field built again from what is read; `P_FilesAnswers.v`, `P_CondFilesAnswers.v`: renaming the variables keeps trees, symmetry and most probable assignments, so the queries by name return the same; the order of the variables, hence the meaning of a training set, can differ (refuted in `P_CopyAnswers.v`); `P_FilesTraining.v`: with the values reordered by the names of the variables, gradients and trainings are the same; `P_CondFilesTraining.v`: the same for conditional random fields |
| C46 | absorb/copy | induction over the factors; `CondCopy.v`: the construction of a conditional random field is the copy of the field followed by the replacement of the tuners, when names are distinct; `P_CopyAnswers.v`, `P_CondCopyAnswers.v`: most probable values and joint distributions, by the renaming lemmas of `P_FilesAnswers.v`; `P_CopyAnswers.v`: the order of the variables of a copy, hence the meaning of a training set, can differ (refuted); `P_CopyGradient.v`: the gradient of a copy, for training sets with reordered columns; `P_CopyTraining.v`: the weights left by a training, for any trainer; `P_CondCopyTraining.v`: the same for conditional random fields, as the evidences given by a reordered combination are those given by the combination |
| C47 | `findVariable` | induction |
| C48 | evidences | invariant and refinement of C18-C20; marginals from C22 |
| C49 | weights, caches | coherence invariant over the histories of a random field (`Coherent.v`, `FieldHist.v`); refutations for the caches that `setWeights` does not reset |
| C50 | `ConditionalRandomField` | invariant over all the histories of public calls |
| C51 | gradient of a conditional random field | invariant of the fields whose stored evidence messages may be out of date (`CRFInv.v`), C22 for each sample, derivative over R; refutations for the stored positions and for weights of single variables |
| C52 | `ModelTrainer` | induction over the trainer (an inductive type with functional continuations), the state of the model related to a vector of parameters; each gradient from C39 and C51 |
| C53 | XML export/import on trees of tags; the order of the multimaps is an oracle | the tag that is read has the contents of the JSON tree (`XmlProofs.v`), and the import of the tag is the import of that tree: C45; refutations as for C45, and for the order of the columns of a `Source` file; `P_FilesAnswers.v`: as for C45; the order of the variables, hence the meaning of a training set, can differ (refuted in `P_CopyAnswers.v`); `P_FilesTraining.v`: with the values reordered by the names of the variables, gradients and trainings are the same; `P_CondFilesTraining.v`: the same for conditional random fields |
| C54 | every call of the API on a graph, with undefined behaviour as a distinct outcome | a weak invariant of the messages (sizes and senders, no positivity) kept by every propagation round (`Safe.v`), so that no access is out of bounds; conditions in `SafeSpec.v`, each needed (earlier refutations); the calls on a random field, gradients included, in `FieldSafe.v`, conditions in `FieldSafeSpec.v`; samples in `SampleSafe.v`; conditional random fields in `CondSafe.v`, conditions in `CondSafeSpec.v` |
| C55 | queries with two numbers of threads on the same state | `Warm.v`: the thread pool strategies depend on the number of threads only through being one or more (`check_class`), and a query starts from messages that the reset makes equal (`ready_again`); refutation on a ring for one against two threads |
| C56 | `absorb_const`, `absorb_tunable`, `absorb_clusters` on a random field | `AbsorbSpec.v` runs the rejections of `GraphSpec.v` on the list; `Absorb.v`: one insertion of each kind returns or throws as the specification says, keeps the invariant and gives the clusters (`add_tunable_one`), then induction on the list |
| C57 | the Gibbs chain of `GibbsSpec.v`, which C36 ties to `make_samples` | `MarkovSpec.v` gives the probabilities of the moves of the chain; `Markov.v`: detailed balance of one redraw, hence the weight of the model is kept by a sweep in any order; when every combination has a positive weight a sweep reaches every combination with a probability above a constant, and the distance from the distribution of the model shrinks by a fixed ratio (a lemma on finite chains over any ordered field). `P_Markov.v` instantiates it for graphs, random fields and conditional random fields. Not expressible: the quality of the generators of the standard library |
| C58 | `set_evidences`, `crf_ctor` (CRF.v) and the queries on the graph | `P_CondAnswers.v`: setting an evidence forgets the last propagation, so the invariant of the messages (`calib`) holds after the construction and after setEvidences and is kept by the queries; then the exactness of the queries (C22-C25) applies. `told` is the model observed at the values passed |
| C59 | `import_json`, `import_xml` (Json.v, Xml.v) on any tree and any model | `Import.v`: an import is a list of readings and insertions followed by the evidences (`run_doc`), whatever the document; each insertion only extends the model (`gro`), reachability and the absence of undefined behaviour come from C54; refutations for missing members, big integers, blank lines, rollback, homonyms |
| C60 | two states of the model with any histories | `Separate.v`: the weight of an assignment is a product of a part on the variables linked to v and a part on the others, so are the masses of the events (`mass_split`); the first part is the same in the two models; then C49 for the answers, C59 for the imports |
| C61 | `import_json`, `import_xml` on any tree and any model | `Complete.v`: what each reading function returns is what `CompleteSpec.v` says of the document (`json_potential_ok`, `xml_potential_ok`, `variables_ok`); the exact effect of each insertion that returns (`const_ret`, `tun_ret`), by induction on the potentials, on the cumulated shared factors and on the evidences (`run_all_ret`, `shared_ret`, `evidences_ret`) |
| C62 | `ModelTrainer`, `RandomField`, the queries | the invariant of the histories of C49 (the last propagation agrees with the weights) is kept by each step of a training, whatever the trainer, so by the trainings; then the exactness of the queries and of the gradients (`P_Trained.v`); a conditional random field has, once its evidences are set, no message left from the training (`P_CondTrained.v`) |
