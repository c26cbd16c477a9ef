{"id": "C01", "title": "resolveRandom samples by inverse CDF", "statement": "For a vector of non-negative weights m and a draw r, resolveRandom(m) returns index i exactly when r lies in the half-open interval between the cumulated weight before i (excluded) and after i (included); a draw of 0 selects the first index of positive weight. The returned index is in range and has positive weight.", "quantifier": "every finite vector of non-negative weights and every draw r with 0 <= r <= sum(m)", "why_tests_cant": "random draws only sample finitely many r and vectors; boundary draws have probability ~0", "anchors": ["jajapy/base/tools.py:resolveRandom"]}
{"id": "C02", "title": "resolveRandom fails exactly when the draw exceeds the total weight", "statement": "resolveRandom(m) raises IndexError iff the draw is larger than the sum of m or m has no positive weight; it never loops and never returns an index of weight zero.", "quantifier": "every vector of non-negative weights and every draw in [0,1)", "why_tests_cant": "the failing draws form a set of tiny probability that tests do not hit", "anchors": ["jajapy/base/tools.py:resolveRandom"]}
{"id": "C03", "title": "Accepted models can always be simulated", "statement": "A model accepted by a constructor can be simulated: whatever the random draws, run/next do not raise.", "quantifier": "every accepted transition matrix and every draw", "why_tests_cant": "the constructor rounds row sums to three decimals, so the failing draws are rare", "anchors": ["jajapy/base/tools.py:checkProbabilities", "jajapy/base/tools.py:resolveRandom", "jajapy/mc/MC.py:MC"]}
{"id": "C04", "title": "normalize and randomProbabilities return probability vectors", "statement": "normalize(l) has the length of l, sums to 1 and keeps the ratios whenever sum(l) is not 0. randomProbabilities(n) returns, for every outcome of the random generator, n strictly positive numbers summing to 1; it raises ValueError for n<=0 and TypeError for a positive non-int.", "quantifier": "every list with non-zero sum; every size and every random outcome", "why_tests_cant": "unbounded sizes and random outcomes", "anchors": ["jajapy/base/tools.py:normalize", "jajapy/base/tools.py:randomProbabilities"]}
{"id": "C05", "title": "checkProbabilities decision rule", "statement": "checkProbabilities(l) is True iff the sum of l is within 0.0005 of 1 or of 0.", "quantifier": "every vector", "why_tests_cant": "real-valued input space", "anchors": ["jajapy/base/tools.py:checkProbabilities"]}
{"id": "C06", "title": "checkProbabilities accepts only probabilities", "statement": "If checkProbabilities(l) is True then all entries of l are between 0 and 1 (up to rounding).", "quantifier": "every vector", "why_tests_cant": "real-valued input space; needs a counterexample or a proof", "anchors": ["jajapy/base/tools.py:checkProbabilities"]}
{"id": "C07", "title": "hoeffdingBound is a symmetric, monotone compatibility test", "statement": "hoeffdingBound(f1,n1,f2,n2,alpha) is symmetric in the two samples, accepts equal frequencies when 0<alpha<2, accepts as soon as one sample is empty, and accepting for alpha implies accepting for any smaller positive alpha.", "quantifier": "all counts and confidence levels", "why_tests_cant": "real-valued parameters", "anchors": ["jajapy/base/tools.py:hoeffdingBound"]}
{"id": "C08", "title": "A Set built from a list is its multiset", "statement": "Set(l) contains each distinct sequence of l once, in order of first occurrence, with times equal to its number of occurrences; sum(times)=len(l).", "quantifier": "every list of sequences", "why_tests_cant": "unbounded lists", "anchors": ["jajapy/base/Set.py:Set.setFromList"]}
{"id": "C09", "title": "to_list inverts the construction", "statement": "Set(l).to_list() is a permutation of l; more generally, to_list contains each sequence exactly times[i] times as long as all times are at least 1.", "quantifier": "every list of sequences, every set with positive times", "why_tests_cant": "unbounded lists", "anchors": ["jajapy/base/Set.py:Set.to_list"]}
{"id": "C10", "title": "addSet adds multiplicities", "statement": "After s1.addSet(s2) the multiplicity of every sequence is the sum of its multiplicities in s1 and s2, sequences stay distinct and keep their order; with different types it raises TypeError and changes nothing.", "quantifier": "all pairs of sets", "why_tests_cant": "unbounded sets and sequences", "anchors": ["jajapy/base/Set.py:Set.addSet"]}
{"id": "C11", "title": "isEqual is multiset equality", "statement": "For sets whose stored sequences are distinct, s1.isEqual(s2) iff the types agree and every sequence has the same multiplicity; it is an equivalence relation, insensitive to order.", "quantifier": "all pairs of sets with distinct sequences", "why_tests_cant": "unbounded sets", "anchors": ["jajapy/base/Set.py:Set.isEqual"]}
{"id": "C12", "title": "getAlphabet and getActionsObservations are exact", "statement": "For each type of set the returned lists have no duplicates and contain exactly the symbols found at observation (resp. action) positions.", "quantifier": "all sets of types 0, 1 and 4 with non-empty sequences", "why_tests_cant": "unbounded sequences", "anchors": ["jajapy/base/Set.py:Set.getAlphabet", "jajapy/base/Set.py:Set.getActionsObservations"]}
{"id": "C13", "title": "sort only reorders", "statement": "After sort() the sequences are in lexicographic order and each sequence keeps its multiplicity.", "quantifier": "all sets of sequences of strings", "why_tests_cant": "unbounded sets", "anchors": ["jajapy/base/Set.py:Set.sort"]}
{"id": "C14", "title": "Set type inference is total", "statement": "Set(sequences) without explicit type always yields a set, with type 4 for observation/dwell-time traces, 3 for lists of vectors and 0 otherwise.", "quantifier": "all non-empty lists of non-empty traces", "why_tests_cant": "short traces are rarely tested", "anchors": ["jajapy/base/Set.py:Set.__init__"]}
{"id": "C15", "title": "Saving and loading a Set gives back the same Set", "statement": "loadSet(f) after s.save(f) returns the same type, sequences and times, whatever characters the observations contain.", "quantifier": "all sets of traces over all (ASCII) observation strings, integers and floats", "why_tests_cant": "arbitrary strings, including quotes, backslashes and newlines", "anchors": ["jajapy/base/Set.py:Set.save", "jajapy/base/Set.py:loadSet"]}
{"id": "C16", "title": "Model constructors: acceptance rule and initial distribution", "statement": "MC(matrix,labelling) is accepted iff some label is 'init', the labelling has one label per row and every row sum is within 0.0005 of 0 or 1; the initial distribution is then uniform over the 'init' states and sums to 1.", "quantifier": "all matrices and labellings", "why_tests_cant": "unbounded sizes, real entries", "anchors": ["jajapy/base/Base_MC.py:Base_MC.__init__", "jajapy/base/Model.py:Model.__init__", "jajapy/mc/MC.py:MC.__init__"]}
{"id": "C17", "title": "Accessors check state ids", "statement": "a, tau, getLabel and b raise TypeError for anything which is not an int and IndexError for ids outside 0..nb_states-1, and otherwise return the stored values; in particular negative ids never wrap.", "quantifier": "all arguments", "why_tests_cant": "unbounded ids", "anchors": ["jajapy/base/Model.py:Model._checkStateIndex", "jajapy/mc/MC.py:MC.tau", "jajapy/mc/MC.py:MC.a", "jajapy/base/Base_MC.py:Base_MC.getLabel"]}
{"id": "C18", "title": "State ids returned by the model can be given back to it", "statement": "A state id returned by next() is accepted by a, tau and getLabel.", "quantifier": "all models and draws", "why_tests_cant": "types produced by numpy are invisible in value-level tests", "anchors": ["jajapy/base/tools.py:resolveRandom", "jajapy/base/Model.py:Model._checkStateIndex"]}
{"id": "C19", "title": "createMC builds the described chain", "statement": "When the states mentioned in the transitions are 0..n-1 and n labels without 'init' are given, createMC returns a chain with n+1 states where a(i,j) is the probability of the last listed transition from i to j (0 if none), the labels are the given ones, state n is labelled 'init', is the unique initial state, has no incoming transition, and moves according to initial_state.", "quantifier": "all transition lists, labels and initial distributions", "why_tests_cant": "unbounded lists", "anchors": ["jajapy/mc/MC.py:createMC"]}
{"id": "C20", "title": "createMC rejects malformed input and renumbers gaps", "statement": "createMC raises SyntaxError if 'init' is used as a label and ValueError if the number of labels differs from the number of states mentioned or a row sum is invalid; state ids with gaps are renumbered in increasing order.", "quantifier": "all transition lists and labels", "why_tests_cant": "unbounded lists", "anchors": ["jajapy/mc/MC.py:createMC"]}
{"id": "C21", "title": "create functions do not change their arguments", "statement": "Calling createMC twice with the same arguments gives the same result twice.", "quantifier": "all arguments", "why_tests_cant": "history dependent", "anchors": ["jajapy/mc/MC.py:createMC", "jajapy/ctmc/CTMC.py:createCTMC", "jajapy/mdp/MDP.py:createMDP"]}
{"id": "C22", "title": "MC runs are real executions", "statement": "MC.run(n) returns n+1 labels which label a path of the chain starting in an initial state and using only transitions of positive probability; so every generated trace has a positive likelihood.", "quantifier": "all chains, lengths and random outcomes", "why_tests_cant": "unbounded runs and random outcomes", "anchors": ["jajapy/mc/MC.py:MC.run", "jajapy/mc/MC.py:MC.next"]}
{"id": "C23", "title": "HMM runs are real executions", "statement": "HMM.run(n) returns n symbols, the k-th one emitted with positive probability in the k-th state of a path of positive probability.", "quantifier": "all HMMs, lengths and random outcomes", "why_tests_cant": "unbounded runs and random outcomes", "anchors": ["jajapy/base/Model.py:Model.run", "jajapy/base/Base_HMM.py:Base_HMM.next"]}
{"id": "C24", "title": "MDP runs alternate observations and allowed actions", "statement": "MDP.run(n,scheduler) returns a list of length 2n+1 alternating labels and actions, where each action is available in the current state and each move has positive probability.", "quantifier": "all MDPs, schedulers, lengths and random outcomes", "why_tests_cant": "unbounded runs, arbitrary schedulers", "anchors": ["jajapy/mdp/MDP.py:MDP.run"]}
{"id": "C25", "title": "CTMC runs only use transitions with positive rate", "statement": "Every move in CTMC.run follows a transition of positive rate, whatever the exponential draws.", "quantifier": "all CTMCs without absorbing states and all draws", "why_tests_cant": "needs rare large draws", "anchors": ["jajapy/ctmc/CTMC.py:CTMC.next"]}
{"id": "C26", "title": "generateSet returns the requested number of traces", "statement": "generateSet(k,...) returns a set of distinct traces whose multiplicities sum to k and are exactly the number of times each trace was produced; each trace has the requested length.", "quantifier": "all k, lengths and random outcomes", "why_tests_cant": "unbounded k and random outcomes", "anchors": ["jajapy/base/Model.py:Model.generateSet"]}
{"id": "C27", "title": "logLikelihood of a trace is the log of the sum over all state paths", "statement": "The probability computed for a trace equals the sum, over all state sequences of the same length, of the initial probability times the transition and observation probabilities.", "quantifier": "all models (MC, HMM, MDP, CTMC) and traces", "why_tests_cant": "exponentially many paths, unbounded traces", "anchors": ["jajapy/base/Model.py:Model._computeAlphas", "jajapy/mdp/MDP.py:MDP._computeAlphas", "jajapy/ctmc/CTMC.py:CTMC._computeAlphas_timed"]}
{"id": "C28", "title": "Trace probabilities form a distribution", "statement": "For a model with stochastic rows the probabilities of all traces of a given length over the model's alphabet sum to 1, and each is between 0 and 1.", "quantifier": "all stochastic MCs and HMMs and all lengths", "why_tests_cant": "exponentially many traces", "anchors": ["jajapy/base/Model.py:Model._computeAlphas"]}
{"id": "C29", "title": "Single-process and multi-process likelihoods agree", "statement": "logLikelihood does not depend on the platform: the sorted, prefix-sharing single-process computation and the multi-process one return the same value.", "quantifier": "all models and sets", "why_tests_cant": "depends on sharing across all prefixes, unbounded sets", "anchors": ["jajapy/base/Model.py:Model._logLikelihood_oneproc", "jajapy/base/Model.py:Model._logLikelihood_multiproc", "jajapy/base/Model.py:Model._updateAlphaMatrix"]}
{"id": "C30", "title": "Prefix sharing is transparent", "statement": "Reusing the forward values of the common prefix of consecutive sorted sequences gives the same forward values as computing each sequence from scratch, whatever the order and lengths of the sequences.", "quantifier": "all models and lists of sequences", "why_tests_cant": "unbounded lists", "anchors": ["jajapy/base/Model.py:Model._updateAlphaMatrix", "jajapy/mdp/MDP.py:MDP._updateAlphaMatrix"]}
{"id": "C31", "title": "logLikelihood depends only on the multiset", "statement": "logLikelihood is unchanged by reordering the set and by merging or splitting multiplicities.", "quantifier": "all sets", "why_tests_cant": "unbounded permutations", "anchors": ["jajapy/base/Model.py:Model.logLikelihood"]}
{"id": "C32", "title": "Impossible traces lower the likelihood", "statement": "A set containing a trace that the model cannot produce has a smaller logLikelihood than the same set without it.", "quantifier": "all models and sets", "why_tests_cant": "needs a general statement about sets", "anchors": ["jajapy/base/Model.py:Model._logLikelihood_multiproc"]}
{"id": "C33", "title": "Forward and backward values are consistent", "statement": "In the learning algorithm, at every position of a trace the sum over states of forward times backward value equals the probability of the trace.", "quantifier": "all models and traces", "why_tests_cant": "unbounded traces", "anchors": ["jajapy/base/BW.py:BW._computeAlphas", "jajapy/base/BW.py:BW._computeBetas"]}
{"id": "C34", "title": "Learning keeps MCs stochastic", "statement": "Whatever the training set and the number of rounds, BW.fit started from an MC with stochastic rows produces an MC with stochastic rows, same number of states and same labels; states never visited keep their transitions.", "quantifier": "all MCs, training sets, numbers of rounds", "why_tests_cant": "unbounded rounds", "anchors": ["jajapy/base/BW.py:BW._update_MC", "jajapy/base/BW.py:BW._processWork_MC"]}
{"id": "C35", "title": "Learning keeps HMMs stochastic", "statement": "Same for HMMs: transition rows, emission rows and the initial distribution remain distributions.", "quantifier": "all HMMs, training sets, numbers of rounds", "why_tests_cant": "unbounded rounds", "anchors": ["jajapy/base/BW.py:BW._update_HMM", "jajapy/base/BW.py:BW._processWork_HMM"]}
{"id": "C36", "title": "Learning keeps MDPs stochastic", "statement": "Same for MDPs: each state-action row remains a distribution (or empty), and pairs never tried keep their row.", "quantifier": "all MDPs, training sets, numbers of rounds", "why_tests_cant": "unbounded rounds", "anchors": ["jajapy/base/BW.py:BW._update_MDP", "jajapy/base/BW.py:BW._processWork_MDP"]}
{"id": "C37", "title": "Learning never creates transitions", "statement": "A transition of probability (rate) zero in the initial model still has probability (rate) zero after any number of learning rounds.", "quantifier": "all models, training sets, rounds", "why_tests_cant": "unbounded rounds", "anchors": ["jajapy/base/BW.py:BW._update_MC", "jajapy/base/BW.py:BW._update_CTMC"]}
{"id": "C38", "title": "Each round does not decrease the MC likelihood", "statement": "The log-likelihood of the training set under the updated MC is at least the one under the previous MC.", "quantifier": "all stochastic MCs and training sets", "why_tests_cant": "an inequality over reals for all models", "anchors": ["jajapy/base/BW.py:BW._bw", "jajapy/base/BW.py:BW._update_MC"]}
{"id": "C39", "title": "Each round does not decrease the HMM likelihood", "statement": "Same for HMMs.", "quantifier": "all stochastic HMMs and training sets", "why_tests_cant": "an inequality over reals for all models", "anchors": ["jajapy/base/BW.py:BW._update_HMM"]}
{"id": "C40", "title": "Each round does not decrease the MDP likelihood", "statement": "Same for MDPs.", "quantifier": "all stochastic MDPs and training sets", "why_tests_cant": "an inequality over reals for all models", "anchors": ["jajapy/base/BW.py:BW._update_MDP"]}
{"id": "C41", "title": "Each round does not decrease the timed CTMC likelihood", "statement": "Same for CTMCs with dwell times.", "quantifier": "all CTMCs and timed training sets", "why_tests_cant": "an inequality over reals for all models", "anchors": ["jajapy/base/BW.py:BW._update_CTMC", "jajapy/base/BW.py:BW._processWork_CTMC"]}
{"id": "C42", "title": "Learning terminates", "statement": "For epsilon>0 and no bound on the number of rounds, BW.fit on MCs, HMMs and MDPs stops after finitely many rounds, with an explicit bound; with max_it it stops after at most max_it rounds.", "quantifier": "all models, training sets and epsilon>0", "why_tests_cant": "termination", "anchors": ["jajapy/base/BW.py:BW._bw"]}
{"id": "C43", "title": "Learning does not depend on worker scheduling", "statement": "The result of a learning round does not depend on the order in which worker processes complete.", "quantifier": "all completion orders", "why_tests_cant": "scheduling nondeterminism", "anchors": ["jajapy/base/BW.py:BW._runProcesses"]}
{"id": "C44", "title": "Learning does not depend on the number of processes", "statement": "BW.fit with processes=1 and with several processes gives the same model.", "quantifier": "all training sets", "why_tests_cant": "depends on sequences that the model cannot produce", "anchors": ["jajapy/base/BW.py:BW._runProcesses"]}
{"id": "C45", "title": "Fixed parameters stay fixed", "statement": "Rates declared in fixed_parameters have the same value before and after learning a CTMC.", "quantifier": "all CTMCs, masks, training sets, rounds", "why_tests_cant": "only fails for states never visited by the training set", "anchors": ["jajapy/base/BW.py:BW._update_CTMC"]}
{"id": "C46", "title": "Untimed learning keeps the time scale of a CTMC", "statement": "Learning a CTMC from untimed traces leaves expected dwell times unchanged (they are not observed).", "quantifier": "all CTMCs and untimed training sets", "why_tests_cant": "general statement over models", "anchors": ["jajapy/base/BW.py:BW._processWork_CTMC", "jajapy/base/BW.py:BW._update_CTMC"]}
{"id": "C47", "title": "Training sets are interpreted as given", "statement": "Preparing a training set only adds the initial label in front of traces that lack it, so that observation, action and dwell-time positions stay aligned.", "quantifier": "all training sets of all types", "why_tests_cant": "types and shapes of data", "anchors": ["jajapy/base/BW.py:BW._getTrainingSet"]}
{"id": "C48", "title": "fit does not change the user's training set", "statement": "After fit the training set given by the user is unchanged.", "quantifier": "all training sets", "why_tests_cant": "aliasing", "anchors": ["jajapy/base/BW.py:BW._getTrainingSet", "jajapy/base/Model.py:Model._logLikelihood_oneproc"]}
{"id": "C49", "title": "Incompatible training set and model are rejected", "statement": "fit raises TypeError when the type of the set is not usable with the type of the model.", "quantifier": "all pairs of types", "why_tests_cant": "the condition is a conjunction of disjunctions that tests do not enumerate", "anchors": ["jajapy/base/BW.py:BW._preparation"]}
{"id": "C50", "title": "instantiate accepts exactly valid values", "statement": "PCTMC.instantiate(params,values) returns True iff the new values make every evaluable rate non-negative.", "quantifier": "all PCTMCs and values", "why_tests_cant": "histories of instantiations", "anchors": ["jajapy/pctmc/PCTMC.py:PCTMC.instantiate", "jajapy/pctmc/PCTMC.py:PCTMC._checkRates"]}
{"id": "C51", "title": "instantiate is all-or-nothing", "statement": "If instantiate returns False no parameter value changes; if it returns True exactly the given parameters change.", "quantifier": "all PCTMCs, parameters and values", "why_tests_cant": "unbounded parameter lists", "anchors": ["jajapy/pctmc/PCTMC.py:PCTMC.instantiate", "jajapy/base/Parametric_Model.py:Parametric_Model.instantiate"]}
{"id": "C52", "title": "Composition of CTMCs is the interleaving product", "statement": "In synchronousCompositionCTMCs the states are the pairs of states and the rate from (i,j) to (i',j') is the sum of the local rates of the component that moves (plus synchronised transitions).", "quantifier": "all pairs of CTMCs", "why_tests_cant": "depends on relative sizes and self loops", "anchors": ["jajapy/ctmc/CTMC.py:synchronousCompositionCTMCs"]}
{"id": "C53", "title": "Composition depends only on its arguments", "statement": "Composing the same PCTMCs twice gives the same result, whatever was composed before.", "quantifier": "all histories of compositions", "why_tests_cant": "history dependence through a shared default argument", "anchors": ["jajapy/pctmc/PCTMC.py:synchronousCompositionPCTMCs", "jajapy/pctmc/PCTMC.py:PCTMC.__init__"]}
{"id": "C54", "title": "toMC returns the embedded chain and leaves the CTMC unchanged", "statement": "CTMC.toMC() has a(i,j) = rate(i,j)/exit rate(i), and the CTMC keeps its rates.", "quantifier": "all CTMCs without absorbing states", "why_tests_cant": "aliasing", "anchors": ["jajapy/ctmc/CTMC.py:CTMC.toMC"]}
{"id": "C55", "title": "The prefix tree counts prefixes", "statement": "In the tree built by Alergia the weight of each edge is the number of training traces having the corresponding prefix; siblings have distinct labels in increasing order.", "quantifier": "all training sets", "why_tests_cant": "unbounded sets", "anchors": ["jajapy/mc/Alergia.py:PTA.addKids", "jajapy/mc/Alergia.py:PTA_node.addKid"]}
{"id": "C56", "title": "Alergia returns a valid chain", "statement": "Alergia.fit terminates and returns an MC each of whose rows sums to 1 or is empty (states only reached at the end of traces).", "quantifier": "all training sets and alpha", "why_tests_cant": "unbounded state merging", "anchors": ["jajapy/mc/Alergia.py:Alergia.fit", "jajapy/mc/Alergia.py:PTA.toMC"]}
{"id": "C57", "title": "Alergia generalises: every training trace stays possible", "statement": "Every training trace has positive probability in the chain learned by Alergia, whatever merges are performed.", "quantifier": "all training sets and merge decisions", "why_tests_cant": "unbounded merging", "anchors": ["jajapy/mc/Alergia.py:PTA.merge", "jajapy/mc/Alergia.py:PTA.fold"]}
{"id": "C58", "title": "IOAlergia attributes transitions to the right action", "statement": "In the MDP returned by IOAlergia, the transitions of a state under an action are those observed under this action in the training set.", "quantifier": "all training sets", "why_tests_cant": "depends on states with partial action sets", "anchors": ["jajapy/mdp/IOAlergia.py:IOFPTA.cleanMDP"]}
{"id": "C59", "title": "IOAlergia accumulates frequencies when merging", "statement": "When two states are merged the transition frequencies of the result are the sums of the frequencies of the merged states.", "quantifier": "all trees and merges", "why_tests_cant": "unbounded merging", "anchors": ["jajapy/mdp/IOAlergia.py:IOFPTA.merge"]}
{"id": "C60", "title": "Schedulers resolve actions according to their weights", "statement": "UniformScheduler picks each action on an interval of draws of length 1/n; MemorylessScheduler returns the action stored for the state; FiniteMemoryScheduler moves between memory states according to the last action and observation only, ignoring unknown pairs.", "quantifier": "all schedulers, draws and observation histories", "why_tests_cant": "unbounded histories", "anchors": ["jajapy/mdp/Scheduler.py"]}
{"id": "C61", "title": "Schedulers can be used with MDP.run", "statement": "Every scheduler class of the library can be given to MDP.run.", "quantifier": "all schedulers", "why_tests_cant": "signature mismatch only visible at run time", "anchors": ["jajapy/mdp/Scheduler.py:MemorylessScheduler.getAction", "jajapy/mdp/MDP.py:MDP.run"]}
{"id": "C62", "title": "FiniteMemoryScheduler can replay a sequence", "statement": "getSequenceStates(seq) returns the memory states visited while reading the sequence.", "quantifier": "all schedulers and sequences", "why_tests_cant": "unbounded sequences", "anchors": ["jajapy/mdp/Scheduler.py:FiniteMemoryScheduler.getSequenceStates"]}
{"id": "C63", "title": "The active scheduler explores the least used action with a proper distribution", "statement": "The weights used to explore a state are a probability distribution in which less used actions have larger weights.", "quantifier": "all counts with at least two actions", "why_tests_cant": "unbounded counts", "anchors": ["jajapy/mdp/Active_BW_MDP.py:ActiveLearningScheduler.getActionState"]}
{"id": "C64", "title": "The learning rate of active learning mixes old and new models", "statement": "With a learning rate lr the model after one active round is lr*new+(1-lr)*old.", "quantifier": "all models and rates", "why_tests_cant": "aliasing of mutable models", "anchors": ["jajapy/mdp/Active_BW_MDP.py:Active_BW_MDP.fit", "jajapy/mdp/Active_BW_MDP.py:Active_BW_MDP._mergeModels"]}
{"id": "C65", "title": "Saving and loading a model gives back the same model", "statement": "loadMC/loadHMM/loadMDP/loadCTMC after save return a model with the same name, labels, initial distribution, transition matrix (and alphabet, actions, outputs).", "quantifier": "all models, with arbitrary label strings", "why_tests_cant": "arbitrary strings and floats", "anchors": ["jajapy/base/Model.py:Model._save", "jajapy/mc/MC.py:loadMC", "jajapy/hmm/HMM.py:loadHMM", "jajapy/mdp/MDP.py:loadMDP", "jajapy/ctmc/CTMC.py:loadCTMC"]}
{"id": "C66", "title": "The Prism file lists exactly the transitions and labels", "statement": "The commands written by savePrism contain, for each state, exactly the non-zero transitions with their values, and each label formula lists exactly the states with that label.", "quantifier": "all chains with a unique initial state", "why_tests_cant": "unbounded models", "anchors": ["jajapy/mc/MC.py:MC._savePrismMatrix", "jajapy/base/Base_MC.py:Base_MC._savePrism"]}
{"id": "C67", "title": "savePrism works for every chain", "statement": "savePrism succeeds for every model accepted by the constructor.", "quantifier": "all chains", "why_tests_cant": "depends on several initial states", "anchors": ["jajapy/base/Base_MC.py:Base_MC._savePrism"]}
{"id": "C68", "title": "updateLabelling keeps the model consistent", "statement": "After updateLabelling the initial distribution is uniform over the states labelled 'init' and there is one label per state.", "quantifier": "all label lists", "why_tests_cant": "needs reasoning on a derived attribute", "anchors": ["jajapy/base/Base_MC.py:Base_MC.updateLabelling"]}
{"id": "C69", "title": "Random models are valid", "statement": "MC_random, HMM_random, MDP_random and CTMC_random return, for every outcome of the generator, a model accepted by the constructor with strictly positive transitions (where documented), the requested number of states plus the initial one, and the given labels first.", "quantifier": "all sizes, labels and random outcomes", "why_tests_cant": "random outcomes", "anchors": ["jajapy/mc/MC.py:MC_random", "jajapy/base/Base_MC.py:labelsForRandomModel", "jajapy/hmm/HMM.py:HMM_random"]}
{"id": "C70", "title": "createHMM, createMDP and createCTMC build the described model", "statement": "The value stored for each (state, state), (state, symbol) or (state, action, state) is the one of the last matching tuple, 0 if none.", "quantifier": "all tuple lists", "why_tests_cant": "unbounded lists", "anchors": ["jajapy/hmm/HMM.py:createHMM", "jajapy/mdp/MDP.py:createMDP", "jajapy/ctmc/CTMC.py:createCTMC"]}
{"id": "C71", "title": "Each round does not decrease the GoHMM likelihood", "statement": "Same as C39 for Gaussian-output HMMs, although the variances are computed around the previous means.", "quantifier": "all GoHMMs with positive sigmas and all training sets giving positive sigmas", "why_tests_cant": "an inequality over reals for all models", "anchors": ["jajapy/base/BW.py:BW._update_GoHMM", "jajapy/base/BW.py:BW._processWork_GoHMM"]}
{"id": "C72", "title": "createGoHMM builds the described model", "statement": "createGoHMM returns a GoHMM for well-formed arguments.", "quantifier": "all arguments", "why_tests_cant": "always-failing path must be shown for all arguments", "anchors": ["jajapy/gohmm/GoHMM.py:createGoHMM"]}
{"id": "C73", "title": "A learning round computes ratios of expected counts", "statement": "After one round of BW.fit each transition probability is the expected number of uses of the transition divided by the expected number of visits of its source state, given the training traces; probabilities of states without expected visits, labels and initial distribution are unchanged.", "quantifier": "all models and training sets", "why_tests_cant": "expectations over all hidden paths of unbounded traces", "anchors": ["jajapy/base/BW.py:BW._processWork_MC", "jajapy/base/BW.py:BW._update_MC"]}
{"id": "C74", "title": "Every possible trace contributes to learning", "statement": "A training trace to which logLikelihood gives a positive probability is taken into account by BW.fit.", "quantifier": "all models and training sets", "why_tests_cant": "depends on the structure of the model", "anchors": ["jajapy/base/BW.py:BW._computeAlphas", "jajapy/base/Model.py:Model._computeAlphas"]}
{"id": "C75", "title": "Learning a GoHMM keeps it valid", "statement": "After any number of rounds the transition rows and initial distribution of a GoHMM are distributions, and states without expected visits keep their means and standard deviations.", "quantifier": "all GoHMMs and training sets", "why_tests_cant": "unbounded rounds", "anchors": ["jajapy/base/BW.py:BW._update_GoHMM"]}
{"id": "C76", "title": "fit reports the likelihood of the model it returns", "statement": "With return_data=True the reported training_set_loglikelihood is the log-likelihood of the training set under the returned model.", "quantifier": "all models, training sets and bounds on the number of rounds", "why_tests_cant": "relation between the loop and the returned model", "anchors": ["jajapy/base/BW.py:BW._bw"]}
{"id": "C77", "title": "logLikelihood works whatever the number of CPUs", "statement": "logLikelihood returns a value on every machine.", "quantifier": "all models, sets and CPU counts", "why_tests_cant": "depends on the machine", "anchors": ["jajapy/base/Model.py:Model._logLikelihood_multiproc"]}
{"id": "C78", "title": "CTMC_random respects the documented exit rates", "statement": "Every exit rate of a CTMC produced by CTMC_random is an integer between min_exit_rate_time and max_exit_rate_time.", "quantifier": "all sizes, labels, bounds and random outcomes", "why_tests_cant": "random outcomes", "anchors": ["jajapy/ctmc/CTMC.py:CTMC_random"]}
{"id": "C79", "title": "MDP_random(deterministic=True) is deterministic", "statement": "In every state, every action leads for each label to at most one state carrying that label.", "quantifier": "all sizes, labels, actions and random outcomes", "why_tests_cant": "random outcomes; shape corner cases", "anchors": ["jajapy/mdp/MDP.py:MDP_random"]}
{"id": "C80", "title": "The chain learned by Alergia is a deterministic quotient of the traces", "statement": "Reading the training traces leads from state to state of the learned chain, each state carries the symbol read, all states are reached, two transitions from a state lead to different labels, and each probability is the relative frequency of the move among the training traces passing by the state.", "quantifier": "all training sets, alpha and merge decisions", "why_tests_cant": "unbounded merging", "anchors": ["jajapy/mc/Alergia.py:Alergia.fit", "jajapy/mc/Alergia.py:PTA.merge", "jajapy/mc/Alergia.py:PTA.fold", "jajapy/mc/Alergia.py:PTA.toMC"]}
{"id": "C81", "title": "Alergia.fit can save its output", "statement": "With output_file_prism, Alergia.fit saves the learned chain and returns it.", "quantifier": "all training sets", "why_tests_cant": "must hold for all inputs", "anchors": ["jajapy/mc/Alergia.py:Alergia.fit"]}
{"id": "C82", "title": "Alergia leaves the training set equivalent", "statement": "After Alergia.fit the training set is sorted and contains the same sequences with the same multiplicities.", "quantifier": "all training sets", "why_tests_cant": "unbounded sets", "anchors": ["jajapy/mc/Alergia.py:Alergia.createPTA"]}
{"id": "C83", "title": "Alergia reserves the label init", "statement": "Training sets using 'init' other than as first symbol of every trace are rejected with SyntaxError.", "quantifier": "all training sets", "why_tests_cant": "unbounded sets", "anchors": ["jajapy/mc/Alergia.py:PTA.toMC"]}
{"id": "C84", "title": "Alergia merges only states with similar futures", "statement": "Two nodes are merged only if all the nodes they lead to by the same word have the same label and frequencies within the Hoeffding bound.", "quantifier": "all prefix trees, alpha and pairs of nodes", "why_tests_cant": "recursive test over unbounded trees", "anchors": ["jajapy/mc/Alergia.py:PTA.compatible", "jajapy/base/tools.py:hoeffdingBound"]}
{"id": "C85", "title": "Load functions reject files of other models", "statement": "loadMC, loadMDP, loadCTMC, loadHMM and loadGoHMM raise ValueError on a file whose first line is not the name of their class.", "quantifier": "all files", "why_tests_cant": "unbounded files", "anchors": ["jajapy/mc/MC.py:loadMC", "jajapy/mdp/MDP.py:loadMDP", "jajapy/ctmc/CTMC.py:loadCTMC", "jajapy/hmm/HMM.py:loadHMM", "jajapy/gohmm/GoHMM.py:loadGoHMM"]}
{"id": "C86", "title": "The PCTMC constructor accepts exactly the usable descriptions", "statement": "PCTMC(...) succeeds exactly when 'init' is a label, there is one label per state, one index list per parameter, and every matrix entry designates an expression; otherwise it raises ValueError. The model then has these transitions, labels and parameters, starts uniformly in the states labelled 'init', and its parameters have the given values.", "quantifier": "all matrices, label lists, expressions and parameter tables", "why_tests_cant": "unbounded inputs", "anchors": ["jajapy/pctmc/PCTMC.py:PCTMC.__init__", "jajapy/base/Parametric_Model.py:Parametric_Model.__init__"]}
{"id": "C87", "title": "An instantiated PCTMC behaves as the CTMC of its rates", "statement": "When all parameters have values, e, l, tau, lkl, expected_time and the timed log-likelihood of a PCTMC are those of the CTMC whose rates are the evaluated expressions; without values they raise ValueError.", "quantifier": "all parametric models, parameter values, states, observations and timed training sets", "why_tests_cant": "symbolic rates and unbounded sums over paths", "anchors": ["jajapy/pctmc/PCTMC.py:PCTMC.e", "jajapy/pctmc/PCTMC.py:PCTMC.l", "jajapy/pctmc/PCTMC.py:PCTMC.tau", "jajapy/pctmc/PCTMC.py:PCTMC.lkl", "jajapy/pctmc/PCTMC.py:PCTMC.logLikelihood"]}
{"id": "C88", "title": "PCTMC simulation follows the race of the transitions", "statement": "next moves along a transition of positive rate whose sampled waiting time is smallest and reports this time; run returns a path of such moves of the requested length.", "quantifier": "all instantiated models, states, numbers of steps and samples", "why_tests_cant": "all outcomes of the random generator", "anchors": ["jajapy/pctmc/PCTMC.py:PCTMC.next", "jajapy/pctmc/PCTMC.py:PCTMC.run"]}
{"id": "C89", "title": "createPCTMC builds the described model", "statement": "The model returned by createPCTMC has, for each pair of states, the last rate given for it, the given labels followed by an 'init' state whose row is the initial distribution, and the given parameter values; the caller's lists are unchanged; ids are names as in createCTMC.", "quantifier": "all transition lists, labels, parameters and initial distributions", "why_tests_cant": "unbounded inputs", "anchors": ["jajapy/pctmc/PCTMC.py:createPCTMC"]}
{"id": "C90", "title": "parameterIndexes lists the transitions involving a parameter", "statement": "m.parameterIndexes(p) contains (i,j) exactly when the rate of the transition from i to j involves p.", "quantifier": "all models made by createPCTMC and all parameters", "why_tests_cant": "unbounded inputs", "anchors": ["jajapy/base/Parametric_Model.py:Parametric_Model.parameterIndexes", "jajapy/pctmc/PCTMC.py:createPCTMC"]}
{"id": "C91", "title": "randomInstantiation stays in the bounds", "statement": "randomInstantiation gives each chosen parameter a value between its bounds, by default the documented ones, leaves the others unchanged and terminates.", "quantifier": "all models, parameters, bounds and draws", "why_tests_cant": "all outcomes of the random generator; termination", "anchors": ["jajapy/base/Parametric_Model.py:Parametric_Model.randomInstantiation"]}
{"id": "C92", "title": "Composition of PCTMCs is the product, for all parameter values", "statement": "synchronousCompositionPCTMCs of two PCTMCs has the reachable pairs as states; for every values of the parameters the rate between two pairs is the sum of the local rates and of the synchronised ones; parameters keep their values and positions.", "quantifier": "all pairs of PCTMCs, all lists of synchronous transitions, all parameter values", "why_tests_cant": "symbolic: infinitely many values; depends on sizes, self loops and the order of a set", "anchors": ["jajapy/pctmc/PCTMC.py:synchronousCompositionPCTMCs", "jajapy/pctmc/PCTMC.py:synchronousComposition2PCTMCs"]}
{"id": "C93", "title": "IOAlergia terminates and returns a valid MDP", "statement": "On every set of alternating traces starting and ending with an observation, IOAlergia.fit ends and returns an MDP whose rows are distributions or empty, with at most one state per prefix plus one, whose actions are those of the traces and whose labels are 'init' and observations of the traces.", "quantifier": "all training sets, all epsilon in (0,2]", "why_tests_cant": "unbounded sets; termination of a merging loop", "anchors": ["jajapy/mdp/IOAlergia.py:IOAlergia.fit", "jajapy/mdp/IOAlergia.py:IOFPTA.merge"]}
{"id": "C94", "title": "The MDP returned by IOAlergia is read off the traces", "statement": "Every prefix of a training trace is mapped to one state labelled with its last observation; a state has a transition under an action exactly when a trace goes on so, the successors of a state under an action have different labels, and each weight is the number of traces going on so after one of the prefixes merged into the state.", "quantifier": "all training sets and epsilon", "why_tests_cant": "quotient of an unbounded tree, all sequences of merges", "anchors": ["jajapy/mdp/IOAlergia.py:IOAlergia.fit", "jajapy/mdp/IOAlergia.py:IOFPTA.merge", "jajapy/mdp/IOAlergia.py:IOFPTA.cleanMDP"]}
{"id": "C95", "title": "IOAlergia gives positive probability to the training traces", "statement": "In the MDP returned by IOAlergia, each training trace has positive probability under its actions.", "quantifier": "all training sets and epsilon", "why_tests_cant": "depends on all merges", "anchors": ["jajapy/mdp/IOAlergia.py:IOAlergia.fit", "jajapy/mdp/IOAlergia.py:IOFPTA.cleanMDP"]}
{"id": "C96", "title": "The MDP returned by IOAlergia has one initial state", "statement": "The initial distribution charges a single state, from which the traces are produced.", "quantifier": "all training sets and epsilon", "why_tests_cant": "unbounded sets", "anchors": ["jajapy/mdp/IOAlergia.py:IOFPTA.cleanMDP"]}
{"id": "C97", "title": "IOAlergia can write its result to a Prism file", "statement": "IOAlergia.fit with output_file_prism saves the model and returns it.", "quantifier": "all training sets and epsilon", "why_tests_cant": "must hold for all inputs", "anchors": ["jajapy/mdp/IOAlergia.py:IOAlergia.fit"]}
{"id": "C98", "title": "IOAlergia merges only states with similar futures", "statement": "Two states are merged only if, after every common continuation, they carry the same observation and the frequencies of each observation under each action are within the Hoeffding bound.", "quantifier": "all training sets, epsilon and pairs of prefixes", "why_tests_cant": "recursive test over unbounded trees", "anchors": ["jajapy/mdp/IOAlergia.py:IOFPTA.compatible", "jajapy/mdp/IOAlergia.py:IOFPTA.hoeffding"]}
{"id": "C99", "title": "IOAlergia's prefix tree counts the traces", "statement": "Before merging there is one state per prefix ending with an observation; its counter is the number of traces with this prefix, its transitions lead to the prefixes with one action and one observation more, and the frequencies under an action add up to the number of traces taking it.", "quantifier": "all training sets", "why_tests_cant": "unbounded sets of unbounded traces", "anchors": ["jajapy/mdp/IOAlergia.py:IOAlergia._buildIOFPTA"]}
{"id": "C100", "title": "The exploration scheduler tracks the state of the system", "statement": "After any sequence of proposed actions and observations, the belief of the exploration scheduler gives, for each state of the hypothesis, the probability of this sequence and of being in this state; its counts are the initial ones plus the expected number of uses of each action in each state.", "quantifier": "all hypotheses, counts and histories", "why_tests_cant": "unbounded histories", "anchors": ["jajapy/mdp/Active_BW_MDP.py:ActiveLearningScheduler.addObservation", "jajapy/mdp/Active_BW_MDP.py:ActiveLearningScheduler.reset"]}
{"id": "C101", "title": "The exploration strategy counts the uses of the actions in the training set", "statement": "The counts given to the exploration scheduler are, for each state and action, the expected number of times the action is taken in the state, over the training traces that the hypothesis can produce.", "quantifier": "all hypotheses, training sets and numbers of processes", "why_tests_cant": "sums over all paths of unbounded traces", "anchors": ["jajapy/mdp/Active_BW_MDP.py:Active_BW_MDP._strategy", "jajapy/mdp/Active_BW_MDP.py:Active_BW_MDP._computeProbas"]}
{"id": "C102", "title": "Active sampling returns runs of the system under learning", "statement": "A sample made by active learning contains exactly nb_sequences runs of the system, of the requested length, each possible in the system, counted with their multiplicities.", "quantifier": "all systems, hypotheses, strategies and random draws", "why_tests_cant": "all random choices", "anchors": ["jajapy/mdp/Active_BW_MDP.py:Active_BW_MDP._addTraces"]}
{"id": "C103", "title": "Asking the exploration scheduler for an action ends", "statement": "In every state of the system the exploration scheduler eventually proposes an available action.", "quantifier": "all systems, hypotheses, counts and random draws", "why_tests_cant": "needs all infinite sequences of draws", "anchors": ["jajapy/mdp/Active_BW_MDP.py:ActiveLearningScheduler.getAction", "jajapy/mdp/MDP.py:MDP.run"]}
{"id": "C104", "title": "Active learning uses the given traces and the sampled ones", "statement": "After active learning the set of traces is the training set plus exactly nb_sequences runs of the system per iteration; the training set given by the caller is not changed.", "quantifier": "all training sets, systems, numbers of iterations and draws", "why_tests_cant": "histories of unbounded length, aliasing", "anchors": ["jajapy/mdp/Active_BW_MDP.py:Active_BW_MDP.fit"]}
{"id": "C105", "title": "Active learning does not raise on valid arguments", "statement": "Active_BW_MDP.fit with a valid system, hypothesis and training set raises no exception, for each documented kind of training set and number of processes.", "quantifier": "all systems, hypotheses, training sets, rates and draws", "why_tests_cant": "all random choices and all iterations", "anchors": ["jajapy/mdp/Active_BW_MDP.py:Active_BW_MDP.fit", "jajapy/mdp/Active_BW_MDP.py:Active_BW_MDP._strategy"]}
{"id": "C106", "title": "Active learning returns a valid MDP that explains the traces better", "statement": "After every iteration the model is a valid MDP with the labels, actions and initial distribution of the first model; with learning rate 0 no iteration decreases the likelihood of the traces seen so far.", "quantifier": "all systems, hypotheses, rates, numbers of iterations and draws", "why_tests_cant": "all histories", "anchors": ["jajapy/mdp/Active_BW_MDP.py:Active_BW_MDP.fit"]}
{"id": "C107", "title": "What one round of parameter learning computes", "statement": "In every round of fit_parameters each parameter to estimate is multiplied by the nonnegative number for which the expected number of moves it explains equals the number expected from the observations (moves and dwell times, or moves and visits for untimed traces), and it is kept when it is not exposed at all; the reported log-likelihood is that of the traces.", "quantifier": "all parametric CTMCs whose rates are products of numbers, parameters and powers, all sets of traces, all numbers of rounds", "why_tests_cant": "sums over all paths of unbounded traces, all models", "anchors": ["jajapy/base/BW.py:BW._processWork_PCTMC", "jajapy/base/BW.py:BW._update_PCTMC", "jajapy/base/BW.py:BW._sortParameters"]}
{"id": "C108", "title": "Learning parameters never makes the traces less likely", "statement": "No round of fit_parameters decreases the likelihood of the training traces, makes a possible trace impossible, or makes a rate negative.", "quantifier": "all parametric CTMCs with product rates, all timed sets, and all untimed sets when every state can be left with a fixed rate", "why_tests_cant": "an inequality over all models and traces", "anchors": ["jajapy/base/BW.py:BW.fit_parameters", "jajapy/base/BW.py:BW._update_PCTMC"]}
{"id": "C109", "title": "fit_parameters changes only the parameters it is asked to change", "statement": "When fit_parameters returns, it returns the requested parameters with the values they now have in the model; the other parameters, the expressions, the labels and the structure of the (reduced) model are those before the rounds, and the traces are at least as likely as before.", "quantifier": "all models, sets, lists of parameters, bounds on the number of rounds", "why_tests_cant": "all histories of rounds", "anchors": ["jajapy/base/BW.py:BW.fit_parameters"]}
{"id": "C110", "title": "Learning parameters ends", "statement": "With epsilon positive and positive dwell times fit_parameters makes a number of rounds bounded in advance, whatever max_it; when every parameter has the same total degree wherever it occurs and a trace is possible, it returns values and raises no exception.", "quantifier": "all models, sets, epsilon", "why_tests_cant": "needs all numbers of rounds", "anchors": ["jajapy/base/BW.py:BW.fit_parameters", "jajapy/base/BW.py:BW._bw"]}
{"id": "C111", "title": "Parameters can be learned with a new learning object", "statement": "BW().fit_parameters(...) and BW().fit_nonInstantiatedParameters(...) return the learned values; when a call raises, the model given by the caller is unchanged.", "quantifier": "all models, sets of traces, lists of parameters, tolerances and bounds", "why_tests_cant": "a universal claim about every first call on an object, including the object left behind by a failure", "anchors": ["jajapy/base/BW.py:BW.fit_parameters", "jajapy/base/BW.py:BW.fit_nonInstantiatedParameters", "jajapy/base/BW.py:BW._bw"]}
{"id": "C112", "title": "A parametric CTMC can be learned with fit", "statement": "fit with a parametric CTMC as initial model returns a model, for timed and for untimed traces, with and without fixed parameters; with update_constant, each numeric rate becomes the expected number of moves divided by the expected time spent in the source state, and this does not lower the likelihood.", "quantifier": "all models with a parameter, all sets, all arguments", "why_tests_cant": "quantifies over all models and sets", "anchors": ["jajapy/base/BW.py:BW.fit", "jajapy/base/BW.py:BW._processWork_PCTMC", "jajapy/base/BW.py:BW._computeAlphas_matrix"]}
{"id": "C113", "title": "Only the parameters without a value are learned by fit_nonInstantiatedParameters", "statement": "fit_nonInstantiatedParameters leaves every parameter that already has a value unchanged.", "quantifier": "all models, sets and values", "why_tests_cant": "all histories of rounds", "anchors": ["jajapy/base/BW.py:BW.fit_nonInstantiatedParameters"]}
{"id": "C114", "title": "Rates with an additive constant are learned correctly", "statement": "When a rate is a parameter plus a number, a round of learning does not decrease the likelihood of the traces.", "quantifier": "all models with sums as rates, all sets", "why_tests_cant": "an inequality over all models and traces", "anchors": ["jajapy/base/BW.py:BW._processWork_PCTMC", "jajapy/base/BW.py:BW._update_PCTMC"]}
{"id": "C115", "title": "The numerical equation for a parameter has one solution and the learned value is it", "statement": "When a parameter occurs with several degrees, the equation which defines its new factor has exactly one positive solution, and the root kept by the learning is this solution.", "quantifier": "all equations with the signs arising in a round, of every degree, and all orders in which a root finder lists the complex roots", "why_tests_cant": "all polynomials; the kept root depends on the complex roots, which a few examples do not show", "anchors": ["jajapy/base/BW.py:BW._update_PCTMC"]}
{"id": "C116", "title": "Learning the parameters of a model larger than the observed part", "statement": "fit_parameters first removes the states whose labels are not observed. The states which stay keep their labels, rates and relative initial probabilities, and the likelihood of the traces is not changed by the removal, so the learned values also make the traces at least as likely in the model the caller described.", "quantifier": "all models, all sets of labels, all sets of traces", "why_tests_cant": "all subsets of states of models of every size", "anchors": ["jajapy/base/BW.py:BW.fit_parameters", "jajapy/pctmc/PCTMC.py:PCTMC._remove_state", "jajapy/pctmc/PCTMC.py:PCTMC._remove_unused_parameters"]}
{"id": "C117", "title": "A learning object can be used again", "statement": "After any sequence of learnings with one BW object, learning a model gives the same result as with a new object.", "quantifier": "all sequences of calls of fit and fit_parameters with the different kinds of models, all models, sets and arguments", "why_tests_cant": "all histories of calls on an object", "anchors": ["jajapy/base/BW.py:BW._preparation", "jajapy/base/BW.py:BW.fit", "jajapy/base/BW.py:BW.fit_parameters"]}
{"id": "C118", "title": "Traces with a single observation can be learned from", "statement": "A training set for a CTMC may contain traces with one observation, as it may for an MC.", "quantifier": "all models and sets", "why_tests_cant": "all sets", "anchors": ["jajapy/base/BW.py:BW._splitTime", "jajapy/base/BW.py:BW._processWork_CTMC"]}
{"id": "C119", "title": "A parametric CTMC can be saved and loaded", "statement": "loadPCTMC on the file written by save returns the model which was saved: states, labels, rates, parameter names, values and positions, initial states, name and synchronous transitions. On a file of another kind it raises ValueError.", "quantifier": "all parametric CTMCs, with any names, labels, values and rates", "why_tests_cant": "a round trip over all models and all texts of numbers, names and expressions", "anchors": ["jajapy/pctmc/PCTMC.py:PCTMC.save", "jajapy/pctmc/PCTMC.py:loadPCTMC", "jajapy/base/Parametric_Model.py:Parametric_Model._save", "jajapy/base/Parametric_Model.py:loadParametricModel"]}
{"id": "C120", "title": "The Prism file of a parametric CTMC describes the model", "statement": "savePrism writes a Prism file which declares every parameter, with its value if it has one, and whose states, transitions, rates, labels and initial state are those of the model.", "quantifier": "all parametric CTMCs", "why_tests_cant": "all models, read by any reader of the Prism language", "anchors": ["jajapy/pctmc/PCTMC.py:PCTMC.savePrism"]}
{"id": "C121", "title": "A stormpy model is converted to the same model", "statement": "stormpyModeltoJajapy on a sparse DTMC or CTMC returns a model with one state per state of the sparse model, whose label is made of its labels, with the same transitions, plus one state labelled init which leads to the initial state when that state carries other labels. It fails only with ValueError, exactly when there is no initial state, several initial states with other labels, or a row that is not a distribution.", "quantifier": "all sparse models: any number of states, any sets of labels, any transitions", "why_tests_cant": "all graphs and all sets of labels", "anchors": ["jajapy/with_stormpy/model_converter.py:stormpyModeltoJajapy"]}
{"id": "C122", "title": "The converted model generates the traces of the stormpy model", "statement": "The probability of a trace init, l1, ..., lk in the converted Markov chain is the probability that the sparse model started in its initial state shows l1, ..., lk.", "quantifier": "all sparse Markov chains with one initial state and all traces", "why_tests_cant": "all traces of every length", "anchors": ["jajapy/with_stormpy/model_converter.py:stormpyModeltoJajapy"]}
{"id": "C123", "title": "Converting to stormpy and back gives the model", "statement": "For every MC and CTMC, jajapyModeltoStormpy followed by stormpyModeltoJajapy returns the model: transitions, labels and initial distribution.", "quantifier": "all MCs and CTMCs accepted by their constructors", "why_tests_cant": "a round trip over all models", "anchors": ["jajapy/with_stormpy/model_converter.py:jajapyModeltoStormpy", "jajapy/with_stormpy/model_converter.py:MCtoStormpy", "jajapy/with_stormpy/model_converter.py:CTMCtoStormpy"]}
{"id": "C124", "title": "Conversion keeps the rates of a CTMC", "statement": "In both directions a transition has the same rate in the jajapy CTMC and in the stormpy CTMC.", "quantifier": "all CTMCs and all sparse CTMCs", "why_tests_cant": "all rates", "anchors": ["jajapy/with_stormpy/model_converter.py:stormpyModeltoJajapy", "jajapy/with_stormpy/model_converter.py:CTMCtoStormpy"]}
{"id": "C125", "title": "Actions of a stormpy MDP keep their transitions", "statement": "stormpyModeltoJajapy on a sparse MDP returns an MDP where each action has the transitions of the stormpy action with this name, for the default names and for the names given by the user.", "quantifier": "all sparse MDPs, all names, all orders in which a set can be listed", "why_tests_cant": "all orders of iteration of a set", "anchors": ["jajapy/with_stormpy/model_converter.py:stormpyModeltoJajapy"]}
{"id": "C126", "title": "An MDP converted to stormpy keeps its actions", "statement": "jajapyModeltoStormpy followed by stormpyModeltoJajapy with the names of the actions returns the MDP, and the stormpy model gives every choice the name of its action.", "quantifier": "all MDPs, all orders in which a set can be listed", "why_tests_cant": "all models and orders", "anchors": ["jajapy/with_stormpy/model_converter.py:MDPtoStormpy", "jajapy/with_stormpy/model_converter.py:stormpyModeltoJajapy"]}
{"id": "C127", "title": "An instantiated parametric CTMC converts to the CTMC of its values", "statement": "jajapyModeltoStormpy on a parametric CTMC first builds the CTMC whose rates are the values of the expressions. It raises ValueError exactly when a parameter has no value.", "quantifier": "all parametric CTMCs and all values", "why_tests_cant": "all expressions and values", "anchors": ["jajapy/with_stormpy/model_converter.py:PCTMCtoCTMC", "jajapy/with_stormpy/model_converter.py:PCTMCtoStormpy"]}
{"id": "C128", "title": "A stormpy parametric CTMC is converted to the same parametric CTMC", "statement": "stormpyModeltoJajapy on a sparse parametric CTMC returns a parametric CTMC with the same expression on every transition, whose parameters are exactly those which occur, each with exactly the positions where it occurs and no value.", "quantifier": "all sparse parametric CTMCs with fewer than 65535 transitions", "why_tests_cant": "all graphs and expressions, shared expressions included", "anchors": ["jajapy/with_stormpy/model_converter.py:stormpyModeltoJajapy"]}
{"id": "C129", "title": "The first hypothesis of a fit without initial model can generate the training set", "statement": "The random MC, MDP or CTMC that fit starts from when it is given a number of states generates exactly the traces that start with init and use its labels, whatever the random draws.", "quantifier": "all numbers of states, label lists, draws and traces of any length", "why_tests_cant": "all random draws and traces", "anchors": ["jajapy/base/BW.py:_createInitialModel", "jajapy/mc/MC.py:MC_random", "jajapy/mdp/MDP.py:MDP_random", "jajapy/ctmc/CTMC.py:CTMC_random"]}
{"id": "C130", "title": "fit(nb_states) on sequences of labels returns a Markov chain that explains them", "statement": "With at least as many states as labels, BW().fit(set, nb_states=n) stops without error. The result is a Markov chain with n states and the initial one, labelled with exactly the labels of the set, in which each training sequence has positive probability; its likelihood is at least that of the random chain it started from.", "quantifier": "all training sets, with and without init in front, all draws, all numbers of processes, all max_it large enough", "why_tests_cant": "all sets, draws and numbers of rounds", "anchors": ["jajapy/base/BW.py:fit", "jajapy/base/BW.py:_getTrainingSet", "jajapy/base/BW.py:_createInitialModel", "jajapy/mc/MC.py:MC_random"]}
{"id": "C131", "title": "fit(nb_states) on timed traces returns a CTMC that explains them", "statement": "With at least as many states as labels and bounds on the exit rates, BW().fit(set, nb_states=n) stops without error, and the result is a CTMC with n states and the initial one, labelled with the labels of the set, in which each training trace has positive density; its likelihood is at least that of the random CTMC it started from.", "quantifier": "all timed training sets, draws, numbers of processes, all max_it large enough", "why_tests_cant": "all sets, draws and numbers of rounds", "anchors": ["jajapy/base/BW.py:fit", "jajapy/base/BW.py:_createInitialModel", "jajapy/base/BW.py:_splitTime", "jajapy/ctmc/CTMC.py:CTMC_random"]}
{"id": "C132", "title": "fit(nb_states) on traces with actions returns an MDP that explains them", "statement": "With at least as many states as labels, BW().fit(set, nb_states=n) stops without error, and the result is an MDP with n states and the initial one, with exactly the actions and labels of the set, in which each training trace has positive probability; its likelihood is at least that of the random MDP it started from.", "quantifier": "all training sets with actions, draws, numbers of processes, all max_it large enough", "why_tests_cant": "all sets, draws and numbers of rounds", "anchors": ["jajapy/base/BW.py:fit", "jajapy/base/BW.py:_createInitialModel", "jajapy/base/Set.py:getActionsObservations", "jajapy/mdp/MDP.py:MDP_random"]}
{"id": "C133", "title": "A learned model is a valid model of its class", "statement": "The matrix, labels (alphabet, output), initial distribution and name of the model returned by fit are accepted by the constructor of its class, which returns the same model. So the learned model can be saved and loaded back unchanged, exported to Prism and converted to stormpy and back.", "quantifier": "all initial models accepted by their constructor, training sets, numbers of processes and rounds", "why_tests_cant": "all models, sets and numbers of rounds", "anchors": ["jajapy/base/BW.py:_bw", "jajapy/mc/MC.py:MC", "jajapy/hmm/HMM.py:HMM", "jajapy/mdp/MDP.py:MDP", "jajapy/ctmc/CTMC.py:CTMC", "jajapy/gohmm/GoHMM.py:GoHMM"]}
{"id": "C134", "title": "Learning only removes behaviours, never one of the training set", "statement": "Every trace which is possible in the learned model was possible in the initial model; every training trace which was possible stays possible; the learned model can be simulated for any number of steps and everything it generates was possible in the initial model; the actions available in each state of an MDP do not change.", "quantifier": "all initial models, training sets, numbers of rounds, traces and random draws", "why_tests_cant": "all models, sets, traces and draws", "anchors": ["jajapy/base/BW.py:_bw", "jajapy/base/Model.py:run", "jajapy/mdp/MDP.py:getActions"]}
{"id": "C135", "title": "Learning a GoHMM from a number of states; lists and sets of unknown kind", "statement": "fit with nb_states on traces of vectors of the same dimension, in which every component varies, succeeds for every random draw, number of processes and number of rounds, and returns a GoHMM with that many states, stochastic matrix, distribution as initial state, positive standard deviations, every training trace having positive density, and log-likelihood at least that of the random first hypothesis. Giving a list of traces is the same as giving the Set made from it. On a set of no known kind (e.g. an empty list) it raises AttributeError.", "quantifier": "all training sets, sizes, random draws, numbers of processes and rounds", "why_tests_cant": "all sets, sizes and draws; no bound on the number of rounds", "anchors": ["jajapy/base/BW.py:_createInitialModel", "jajapy/base/BW.py:_getTrainingSet", "jajapy/gohmm/GoHMM.py:GoHMM_random", "jajapy/base/BW.py:_bw"]}
{"id": "C136", "title": "The same results hold with the machine's floating-point numbers", "statement": "The log-likelihood of a trace of n tosses of a fair coin is - n ln 2 and fit succeeds on any set of such traces, whatever their lengths; a model accepted by its constructor can be simulated for every value of random(). (Guarantees C22, C42 and C76 without the idealisation of exact arithmetic.)", "quantifier": "all traces of tosses of any length, all training sets containing one, all numbers of processes and rounds; all values the random generator may return", "why_tests_cant": "all lengths; the failures only occur from a length on which tests do not reach, or for one draw in 2^52", "anchors": ["jajapy/base/BW.py:_computeAlphas", "jajapy/base/BW.py:_processWork", "jajapy/base/Model.py:logLikelihood", "jajapy/base/tools.py:resolveRandom"]}
{"id": "C137", "title": "Whatever the rounding: no new transitions, processes and prefix sharing do not change a bit, simulation follows the model", "statement": "With the machine's floating-point numbers: an entry of the model which is 0 is 0 (or not a number) after any number of rounds of fit, for matrices, outputs and initial distributions of MCs, HMMs, MDPs, CTMCs and GoHMMs; if fit succeeds with one process, it returns the same model, bit for bit, with any number of processes; a simulation which returns a trace only took transitions, observations and available actions of non-zero probability; reusing the forward values of the previous trace gives the very numbers of a computation from scratch.", "quantifier": "all models with double-precision entries (accepted by the constructor or not), training sets, numbers of rounds and processes, random draws; all arithmetics for the number of processes and prefix sharing", "why_tests_cant": "all models, sets, rounds and roundings", "anchors": ["jajapy/base/BW.py:_bw", "jajapy/base/BW.py:_runProcesses", "jajapy/base/Model.py:run", "jajapy/base/Model.py:_updateAlphaMatrix", "jajapy/base/tools.py:resolveRandom"]}
{"id": "C138", "title": "print shows the model: name, initial states, one section per state with its label and its transitions", "statement": "Reading back what print(model) writes gives the name, the initial states, and one section per state in order, with the label of the state and exactly its transitions, rates, observations or densities, each once, provided their probability is more than 0.0001. Two chains printed alike have the same name, labels and (up to the printed digits) the same transitions above 0.0001.", "quantifier": "all MCs, HMMs, MDPs, CTMCs and GoHMMs, of any size, whose names and labels are on one line, and all numbers", "why_tests_cant": "all models, names and labels", "anchors": ["jajapy/base/Model.py:__str__", "jajapy/mc/MC.py:_stateToString", "jajapy/mdp/MDP.py:_stateToString", "jajapy/ctmc/CTMC.py:_stateToString", "jajapy/hmm/HMM.py:_stateToString", "jajapy/gohmm/GoHMM.py:_stateToString"]}
{"id": "C139", "title": "Simulated traces have the probability the model gives them", "statement": "The sequences of values of random() for which run returns a given trace form pairwise disjoint boxes of [0,1]^k whose volumes sum to the probability of the trace (for an MDP with the uniform scheduler, times the probability of the choices). Hence with independent uniform draws every trace is simulated with exactly its probability, and every trace of positive probability is simulated for some draws.", "quantifier": "all MCs, HMMs and MDPs of any size whose rows are distributions (for MDPs: every action available in every state), all traces of any length, all sequences of draws in [0,1)", "why_tests_cant": "all models, traces and draws; frequencies in a test only estimate it", "anchors": ["jajapy/base/Model.py:run", "jajapy/mc/MC.py:next", "jajapy/base/Base_HMM.py:next", "jajapy/mdp/MDP.py:run", "jajapy/base/tools.py:resolveRandom"]}
{"id": "C140", "title": "getAlphabet(state) and getActions(state) list exactly what the state can generate or accept", "statement": "HMM.getAlphabet(state) lists, without repetition and in the order of the alphabet, exactly the observations next_obs can return in that state; MDP.getActions(state) lists, without repetition, exactly the actions with which next returns. Without argument they return the whole alphabet or list of actions; other ids which are not those of a state raise.", "quantifier": "all HMMs and MDPs with distributions (or empty rows) as rows, all states, all draws, all ids", "why_tests_cant": "all models, states and draws", "anchors": ["jajapy/hmm/HMM.py:getAlphabet", "jajapy/hmm/HMM.py:next_obs", "jajapy/mdp/MDP.py:getActions", "jajapy/mdp/MDP.py:next"]}
{"id": "C141", "title": "Printing a parametric CTMC shows its values, states, rates and expressions", "statement": "The text of str(model) of a parametric CTMC, read back line by line, gives the name, the initial state or distribution, exactly the parameters that have a value with that value, and for every state in order its label, the expected waiting time exactly when every parameter of its transitions has a value, and exactly its non-zero transitions with their expressions, followed by the value when the expression has parameters and all of them have values.", "quantifier": "all parametric CTMCs with one-line names and labels and parameter names without spaces, colons or dashes; all ways of writing numbers and expressions on one line", "why_tests_cant": "all models and all partial assignments of parameters", "anchors": ["jajapy/base/Parametric_Model.py:__str__", "jajapy/pctmc/PCTMC.py:_stateToString", "jajapy/base/Parametric_Model.py:transitionValue", "jajapy/base/Parametric_Model.py:isInstantiated"]}
{"id": "C142", "title": "Counts of a Set stay integers", "statement": "Starting from integer counts, adding sets, sorting and loading keep every count an integer, so to_list returns each sequence as many times as its count and a saved set can be loaded again with the same counts.", "quantifier": "all sets, all sequences of addSet, sort, save and load, all sequences of observations", "why_tests_cant": "all sets and histories; the type of a count is invisible to tests that compare numbers, since 3 == 3.0", "anchors": ["jajapy/base/Set.py:__init__", "jajapy/base/Set.py:addSet", "jajapy/base/Set.py:to_list", "jajapy/base/Set.py:save", "jajapy/base/Set.py:sort", "jajapy/base/Set.py:loadSet"]}
{"id": "C143", "title": "lkl of a CTMC is the density of the waiting time of a state", "statement": "CTMC.lkl(state, t) is zero for negative t and positive from 0 on, its integral over [a, b] is the probability that the waiting time of the state falls in [a, b], its total mass is 1 and its mean is expected_time(state). It is the density of the minimum of independent exponential times, one per outgoing rate.", "quantifier": "all CTMCs, all states with a positive exit rate, all real times and intervals", "why_tests_cant": "a continuum of times; integrals over all intervals", "anchors": ["jajapy/ctmc/CTMC.py:lkl", "jajapy/ctmc/CTMC.py:expected_time", "jajapy/ctmc/CTMC.py:e"]}
{"id": "C144", "title": "Learning does not depend on names, numbering or units", "statement": "Renumbering the states of the initial model, renaming labels and actions in the model and in the traces, and multiplying every count of the training set by the same number changes nothing but the way the result of fit is written: the learned model is the original learned model renumbered and renamed, after the same number of iterations. For timed traces, measuring time in another unit only multiplies the learned rates; for Gaussian outputs, measuring a component on another scale only rescales its means and deviations. The log-likelihood of a set is the same for both models.", "quantifier": "all models of each class, all renumberings and injective renamings, all training sets, all numbers of iterations and thresholds", "why_tests_cant": "a test checks one permutation of one model; the claim ranges over all of them and over whole runs of the learner", "anchors": ["jajapy/base/BW.py:BW.fit", "jajapy/mc/MC.py:MC.logLikelihood", "jajapy/ctmc/CTMC.py", "jajapy/gohmm/GoHMM.py", "jajapy/mdp/MDP.py"]}
{"id": "C145", "title": "Learning makes measurable progress", "statement": "One round of Baum-Welch raises the log-likelihood of the training set by at least the distance it moves the model: the sum over states (and actions, and the initial distribution) of the expected number of uses of a row times the squared distance between the square roots of the old and new row; for Gaussian outputs the relative moves of mean and deviation. Consequently a round either returns the model it was given or makes the likelihood strictly larger; when fit stops by itself one of its last two rounds moved the model by less than epsilon; and over any number of rounds the moves add up to no more than the improvement (for MC, HMM and MDP to no more than minus the initial log-likelihood).", "quantifier": "all models, training sets, numbers of rounds, epsilon values and process counts", "why_tests_cant": "strict improvement and summable moves quantify over all models and all run lengths; a test sees a few runs", "anchors": ["jajapy/base/BW.py:BW.fit", "jajapy/base/BW.py:_bw", "jajapy/mc/MC.py", "jajapy/hmm/HMM.py", "jajapy/mdp/MDP.py", "jajapy/ctmc/CTMC.py", "jajapy/gohmm/GoHMM.py"]}
{"id": "C146", "title": "Where learning stops is where the likelihood is flat", "statement": "A model that one round of learning returns unchanged is exactly a model at which the log-likelihood of the training set is stationary: its derivative is zero in every direction that keeps impossible transitions impossible, row totals (for CTMCs, fixed rates instead) and dimensions. From any other model, the straight line towards the model returned by the round lies among these directions and the log-likelihood strictly rises along it. For a parametric CTMC, with timed or untimed traces, a round raises a parameter exactly when the log-likelihood grows with it, and lowers it exactly when the log-likelihood falls.", "quantifier": "every model class, every model with valid rows, every training set for which a round succeeds, every direction of change of the parameters", "why_tests_cant": "the statement is about derivatives in all directions of a function of real parameters, at every model and for every training set; a test can only compare a few finite differences", "anchors": ["jajapy/base/BW.py", "jajapy/mc/MC.py", "jajapy/hmm/HMM.py", "jajapy/mdp/MDP.py", "jajapy/ctmc/CTMC.py", "jajapy/gohmm/GoHMM.py"]}
{"id": "C147", "title": "A simulation may start from a chosen state", "statement": "run(number_steps, current) of an MC, HMM, GoHMM or MDP behaves exactly like run(number_steps) on the same model whose initial state is the chosen one: the first observation comes from that state. A state id follows Python's convention for indices (negative ids count from the end), except -1 which asks for an initial state; any other id raises IndexError and never gives a trace. generateSet gives traces of the model started in its initial distribution whatever its arguments.", "quantifier": "all models, all state ids, all numbers of steps, all random draws and all schedulers", "why_tests_cant": "ranges over all ids (in range, negative, out of range) and all random draws", "anchors": ["jajapy/mc/MC.py:run", "jajapy/base/Model.py:run", "jajapy/base/Model.py:generateSet", "jajapy/mdp/MDP.py:run"]}
{"id": "C148", "title": "Learning without end approaches models where the likelihood is flat", "statement": "From a model under which some trace of the training set is possible, learning can be repeated for ever. The log-likelihoods then converge, and whenever the models come arbitrarily close to some model again and again, that model is valid, a further round returns it unchanged, the log-likelihood is stationary there, and the log-likelihoods converge to its log-likelihood. For MC, HMM, MDP and CTMC (without fixed rates) there always is such a model: the parameters never escape to infinity.", "quantifier": "every model class, every valid initial model and training set, every endless sequence of rounds, every subsequence that converges", "why_tests_cant": "a statement about limits of infinite sequences of rounds; a test sees finitely many rounds", "anchors": ["jajapy/base/BW.py:BW.fit", "jajapy/base/BW.py:_bw", "jajapy/mc/MC.py", "jajapy/hmm/HMM.py", "jajapy/mdp/MDP.py", "jajapy/ctmc/CTMC.py", "jajapy/gohmm/GoHMM.py"]}
{"id": "C149", "title": "Fully observed states: learning returns the observed frequencies, the best possible model", "statement": "When all states have different labels, every training trace can be read off directly. Learning an MDP from traces that are possible under the initial model returns after one round, for every state and action that occurs, the observed frequencies of the successors; learning a CTMC from timed traces returns the number of observed moves divided by the observed time; learning an MC, or the jump probabilities of a CTMC from traces without times, approaches the observed frequencies, the distance shrinking at each round by the factor (traces ending in the state) / (occurrences of the state). No model with the same states, labels and initial distribution gives the training set a higher likelihood than the observed frequencies. A model whose parameters differ from them, in a state or action that occurs, scores strictly lower. States or actions that do not occur keep their parameters. For MDPs and timed CTMCs fit therefore stops within three iterations, whatever its threshold.", "quantifier": "all models with pairwise different labels, all training sets possible under the initial model, all numbers of rounds, all competing models", "why_tests_cant": "optimality ranges over all competing models, and the formula over all training sets and initial models", "anchors": ["jajapy/base/BW.py:BW.fit", "jajapy/base/BW.py:_bw", "jajapy/mc/MC.py", "jajapy/mdp/MDP.py", "jajapy/ctmc/CTMC.py"]}
{"id": "C150", "title": "The model that generated the traces has the best score", "statement": "logLikelihood is a proper score. For a set of distinct traces of one length that the model can emit, the value returned is at most minus the entropy of the set (the sum over the traces of share * log(share)), and equals it only if the model gives each trace exactly its share in the set. So if the traces appear as often as a model says, no other model that can emit them, of the same kind or another (MC, HMM, CTMC without times), has a larger logLikelihood; the same holds for the expected logLikelihood of a simulated trace, and for MDPs under each sequence of actions.", "quantifier": "all pairs of models (any kinds and sizes), all sets of traces, all lengths, all action sequences", "why_tests_cant": "Tests compare the scores of a few models on a few sets; that no other model can do better, whatever its kind and size, is a statement about all models.", "anchors": ["jajapy/base/Model.py: Model.logLikelihood", "jajapy/base/Model.py: Model._logLikelihood_multiproc, Model._computeAlphas", "jajapy/hmm/HMM.py: HMM.a, HMM.b", "jajapy/mdp/MDP.py: MDP._logLikelihood_oneproc, _logLikelihood_multiproc", "jajapy/ctmc/CTMC.py: CTMC.logLikelihood"]}
{"id": "C151", "title": "Simulated CTMC steps and traces follow the density that logLikelihood uses", "statement": "A step of a CTMC simulated with independent exponential samples goes to state i after time t exactly when the sample of i is t and is the smallest. The density of this is the rate times exp(-exit rate * t); so the probability of moving to i between the times a and b is the jump probability times the difference of the two exponentials, and the total probability of moving to i is the jump probability. A whole run returns a timed trace exactly when a path with these labels wins every race with these times, and the density that logLikelihood uses for a timed trace is the sum of the densities of these paths.", "quantifier": "all CTMCs, all states, all samples, all times, runs of every length", "why_tests_cant": "Tests can only compare empirical frequencies of some traces of some models with a tolerance; the law of continuous times has uncountably many outcomes.", "anchors": ["jajapy/ctmc/CTMC.py: CTMC.next, CTMC.tau, CTMC.expected_time, CTMC.lkl", "jajapy/base/Model.py: Model.run", "jajapy/ctmc/CTMC.py: CTMC.logLikelihood"]}
{"id": "C152", "title": "Learning and scoring models with finite numbers never meets nan or infinities", "statement": "When the parameters of a model are finite numbers, learning from a set of traces and scoring a set only compute finite numbers: the arithmetic of numpy, where a division by zero gives inf or nan instead of an exception, gives the same learned parameters, number of rounds, stopping decision and score as exact arithmetic. In particular a learned model contains no nan.", "quantifier": "all MCs, HMMs, MDPs, Gaussian HMMs and CTMCs, all training sets with positive counts, all numbers of rounds, all thresholds", "why_tests_cant": "A division by zero only happens for particular combinations of models and traces; tests cannot go through all of them.", "anchors": ["jajapy/base/BW.py:BW.fit", "jajapy/base/BW.py:_bw", "jajapy/base/Model.py: Model.logLikelihood", "jajapy/ctmc/CTMC.py: CTMC.tau, CTMC.logLikelihood", "jajapy/hmm/HMM.py", "jajapy/gohmm/GoHMM.py", "jajapy/mdp/MDP.py"]}
{"id": "C153", "title": "(Parametric) CTMCs: the score of untimed traces is the score of the chain of jumps, on every platform", "statement": "logLikelihood of a CTMC, or of a parametric CTMC whose parameters all have values, on untimed traces is the average logarithm of the probability of the traces under the chain of jumps; it is the same with several processes (Linux) and with one (Windows, macOS), where only the order of the set changes. Parametric CTMCs with missing values are refused.", "quantifier": "all CTMCs, all parametric CTMCs and values of the parameters, all sets of traces", "why_tests_cant": "Tests run on one platform, with a few models and sets.", "anchors": ["jajapy/pctmc/PCTMC.py: PCTMC.logLikelihood, PCTMC.tau", "jajapy/base/Model.py: Model._logLikelihood_oneproc, Model._logLikelihood_multiproc, Model._computeAlphas", "jajapy/ctmc/CTMC.py: CTMC.logLikelihood, CTMC.tau"]}
{"id": "C154", "title": "Simulated GoHMM traces follow the density used by the score", "statement": "With independent uniform draws for the states and independent standard normal samples for the observations, GoHMM.run returns a trace exactly when the draws follow some path of states and each sample is the standardised observation in the state of the path. The probability of each path is the volume of its draws, and the sum over the paths of that volume times the density of the samples is the density that logLikelihood gives to the trace. Every trace of the right dimension can be returned.", "quantifier": "every GoHMM with distributions and positive standard deviations, every trace, all draws and samples", "why_tests_cant": "The draws are continuous: a test compares sample means within a tolerance and cannot see a wrong density.", "anchors": ["jajapy/gohmm/GoHMM.py: GoHMM.next_obs, GoHMM.l", "jajapy/base/Model.py: Model.run, Model.next", "jajapy/base/tools.py: resolveRandom"]}
{"id": "C155", "title": "Simulated MDP traces follow the MDP and the scheduler", "statement": "MDP.run with a uniform or a finite memory scheduler returns each trace with the probability given by the scheduler and the MDP: the product of the initial probability, of the probabilities of the moves and, for each action, of the probability that the scheduler chooses it among the actions that are available in the state (an unavailable choice is asked again). When everything the scheduler offers is available, this is the probability of the choices times the probability of the trace that logLikelihood uses.", "quantifier": "every MDP whose rows are distributions or all 0, every scheduler that draws an action from a distribution given by its state and moves with the observations, every trace, all draws, any number of refused actions", "why_tests_cant": "The number of draws is unbounded because of the refused actions, and a frequency test accepts small errors.", "anchors": ["jajapy/mdp/MDP.py: MDP.run, MDP.next, MDP.getActions", "jajapy/mdp/Scheduler.py: UniformScheduler, FiniteMemoryScheduler", "jajapy/base/tools.py: resolveRandom"]}
{"id": "C156", "title": "Learning from the model's own frequencies gives the model back", "statement": "When a training set contains, for each length that occurs in it, all the traces the model can emit, each as often as the model says (counts proportional to the probabilities), BW().fit started from that model returns it unchanged: every round computes the same transition, emission and initial probabilities and returns the log-likelihood of the set, and learning stops after two rounds. For an MDP whose actions are available everywhere, the traces with the same actions are compared, so the actions of the set may be chosen in any way.", "quantifier": "every MC and HMM, every MDP with all actions available in all states, every training set with exact frequencies (any mixture of lengths, any action sequences), any number of processes, thresholds and rounds", "why_tests_cant": "The expected counts are sums over all paths and all traces of a length; a test with sampled traces only finds the parameters approximately.", "anchors": ["jajapy/base/BW.py: BW.fit, BW._bw, _processWork_MC, _update_MC, _processWork_HMM, _update_HMM, _processWork_MDP, _update_MDP"]}
{"id": "C157", "title": "Scores of longer traces and of joined training sets", "statement": "The probability logLikelihood uses for a trace is the sum of the probabilities of its extensions by any number of further observations (for an MDP: of the extensions by the same further actions, when these are available everywhere). So an extension is never more likely than the trace, and the score of a possible trace is at most the score of each of its prefixes and at most 0. When two sets are joined with addSet, the score of the result is the mean of the two scores weighted by the numbers of traces.", "quantifier": "every MC, HMM, CTMC (untimed), MDP; joined sets also for GoHMMs; every trace, every number of further observations, all pairs of sets of the same type, with or without common traces", "why_tests_cant": "The sum over all extensions grows exponentially with their length, and a test compares a few traces of a few models.", "anchors": ["jajapy/base/Model.py: Model.logLikelihood, Model._computeAlphas", "jajapy/base/Set.py: Set.addSet", "jajapy/mdp/MDP.py: MDP.logLikelihood", "jajapy/gohmm/GoHMM.py", "jajapy/ctmc/CTMC.py: CTMC.logLikelihood"]}
{"id": "C158", "title": "Composing CTMCs: the order does not matter and the parts behave as alone", "statement": "synchronousCompositionCTMCs of two CTMCs gives the same model in both orders: the reachable states correspond one to one, with the two labels exchanged and the same rates between them and from the initial state. When no action is common to both lists of synchronous transitions, each part moves in the composition with the rates it has alone, whatever the state of the other part, never at the same time as the other part, and the exit rate of a state of the composition is the sum of the exit rates of the parts.", "quantifier": "all pairs of CTMCs with an initial state labelled init in last position, at most one of them with self loops, whose numbers of states differ by at most 1 and with at most 256 expressions, all lists of synchronous transitions", "why_tests_cant": "The number of pairs of states and of orders of their moves is unbounded; tests compare a few products.", "anchors": ["jajapy/ctmc/CTMC.py: synchronousCompositionCTMCs"]}
{"id": "C159", "title": "Alergia's probabilities are the best for its transitions", "statement": "Alergia chooses the transitions of the chain by merging; given them, its probabilities are the best: any other chain with the same states, labels and initial state, with transitions only where the learned one has some, and under which the training traces are possible, has at most the same logLikelihood on the training set (each trace read with 'init' in front), and the same only if it agrees with the learned chain on every state that a trace leaves. Each training trace follows exactly one path, and its probability is the product of the transitions along it. When nothing was merged (as many states as different prefixes) and the traces have one length, the probability of each trace is exactly its share of the training set.", "quantifier": "all training sets accepted by Alergia, all alpha in (0,2], all competing chains on the same transitions", "why_tests_cant": "The competing chains form a continuum and the training sets are unbounded; a test compares with a few.", "anchors": ["jajapy/mc/Alergia.py: Alergia.fit, toMC", "jajapy/mc/MC.py: logLikelihood"]}
{"id": "C160", "title": "Generated sets approach the probabilities of the model, and their generator wins", "statement": "Let a Markov chain or hidden Markov model x have probabilities that sum to one, and let random() return independent uniform values in [0,1). The traces of generateSet(N, size) are independent: any list of N traces comes out with the product of their probabilities. The average over the generated set of any function of the traces differs from its expected value by eps or more with probability at most variance / (N eps^2); so does the share of a trace from its probability p (at most p(1-p) / (N eps^2)), and the logLikelihood that any model y gives to the set, as soon as y can emit what x emits. If y gives another probability to some trace, the probability that y scores at least as well as x on the generated set is at most C / N for some C that does not depend on N: with enough traces the model that generated the set has the best score. The probability of an event here is the volume of the values of random() for which it happens; this number is determined by the event.", "quantifier": "all proper Markov chains and HMMs, all trace lengths, all set sizes, all functions of traces, all eps > 0, all competing MCs, HMMs and untimed CTMCs", "why_tests_cant": "A statement about the probability of all values of random(), of sets of every size; a test sees a few random sets.", "anchors": ["jajapy/base/Model.py: Model.generateSet, run", "jajapy/mc/MC.py: run, logLikelihood", "jajapy/base/tools.py: resolveRandom"]}
{"id": "C161", "title": "Learning from generated traces approaches the chain that generated them", "statement": "Let x be a Markov chain whose labels are all different, and h a chain with the same labels that can emit every trace x can emit. Generate N traces of x with generateSet and learn from them with the Baum-Welch rounds of fit, starting from h. For every eps there are numbers C and K, independent of N and of the number of processes, such that with probability at least 1 - C/N over the values of random(): the set is generated, every round succeeds, and from round K on every transition probability out of a state that the traces can leave is within eps of the probability in x.", "quantifier": "all Markov chains with distinct labels, all starting hypotheses that can emit its traces, all trace lengths, all numbers of traces, rounds and processes, all eps > 0", "why_tests_cant": "A statement about the probability of all values of random(), for sets of every size and any number of rounds; a test learns from a few random sets.", "anchors": ["jajapy/base/BW.py: BW.fit, _processWork_MC, _update_MC", "jajapy/base/Model.py: Model.generateSet", "jajapy/mc/MC.py: run"]}
{"id": "C162", "title": "An MDP learned from generated traces is close to the MDP that generated them", "statement": "Let x be an MDP whose labels are all different and in which every action is available everywhere, and h an MDP with the same labels and actions that can emit every trace x can emit. Generate N traces of t steps of x with generateSet and the uniform scheduler and learn from them with fit, starting from h. For every eps there is a number C, independent of N, such that with probability at least 1 - C/N over the values of random(): the set is generated, and for every number of processes, stopping threshold and positive maximal number of iterations fit returns an MDP whose transition probabilities are within eps of those of x, for every state and action that the traces can try.", "quantifier": "all MDPs with distinct labels and all actions available, all starting hypotheses that can emit its traces, all trace lengths, all numbers of traces and processes, all stopping thresholds and iteration limits, all eps > 0", "why_tests_cant": "A statement about the probability of all values of random(), for sets of every size and every stopping rule; a test learns from a few random sets.", "anchors": ["jajapy/base/BW.py: BW.fit, _processWork_MDP, _update_MDP", "jajapy/mdp/MDP.py: run, generateSet", "jajapy/mdp/Scheduler.py: UniformScheduler"]}
{"id": "C163", "title": "Files that were not written by save: any content, other line ends", "statement": "Whatever a file contains, a load function either raises or returns a model that passed the checks of its constructor (labels with 'init', one label per state, rows that are accepted as probabilities, the initial distribution given by the labels, or for HMMs the one in the file). A model that was loaded can be saved and loaded again and is the same model. The line ends of the file (LF, CR LF, CR) do not change what is loaded, for models and for sets.", "quantifier": "all texts as content of the file, all model classes", "why_tests_cant": "The content of a file is arbitrary; tests try a few well-formed and broken files.", "anchors": ["jajapy/mc/MC.py: loadMC", "jajapy/ctmc/CTMC.py: loadCTMC", "jajapy/mdp/MDP.py: loadMDP", "jajapy/hmm/HMM.py: loadHMM", "jajapy/gohmm/GoHMM.py: loadGoHMM", "jajapy/pctmc/PCTMC.py: loadPCTMC", "jajapy/base/Set.py: loadSet"]}
{"id": "C164", "title": "A file cut short is never loaded as another model", "statement": "If the writing of a file stops at any point (crash, full disk), loading the file raises, for models of every class: no beginning of a saved file other than the whole file is loaded. For a set file cut short, loading should raise too and never give other counts.", "quantifier": "all models that can be saved, all sets, all points at which the file can be cut", "why_tests_cant": "A crash can happen after every byte of every file; tests do not cut files.", "anchors": ["jajapy/base/Model.py: Model._save", "jajapy/base/Parametric_Model.py: Parametric_Model._save", "jajapy/base/Set.py: Set.save, loadSet", "jajapy/mc/MC.py: save, loadMC", "jajapy/pctmc/PCTMC.py: save, loadPCTMC"]}
{"id": "C165", "title": "Composing any number of parametric CTMCs gives the product of all", "statement": "synchronousCompositionPCTMCs of a list of models without synchronous transitions has as states the reachable combinations of one state of each model, labelled by their labels; for all values of the parameters the rate between two combinations is the rate of the one model that moves, 0 if several move; the exit rate is the sum of the exit rates; every parameter of every model is a parameter of the result with its exact positions.", "quantifier": "all lists of two or more parametric CTMCs, all values of the parameters, all orders in which the sets of names are listed", "why_tests_cant": "unbounded number of models; symbolic rates; the models are composed one after the other and the states are removed only at the end", "anchors": ["jajapy/pctmc/PCTMC.py:synchronousCompositionPCTMCs", "jajapy/pctmc/PCTMC.py:synchronousComposition2PCTMCs"]}
{"id": "C166", "title": "The order and the grouping of a composition do not matter", "statement": "Composing the same parametric CTMCs in another order, or composing the first ones and then the result with one more, gives a model with the same reachable combinations of states, the same rates between them for all values of the parameters, the same initial rates, and (when grouped) the same labels, parameters and values.", "quantifier": "all lists of two or more parametric CTMCs, all permutations of the list, all values of the parameters", "why_tests_cant": "unbounded number of models and all permutations; the two results number their states differently and prune different unreachable combinations", "anchors": ["jajapy/pctmc/PCTMC.py:synchronousCompositionPCTMCs", "jajapy/pctmc/PCTMC.py:synchronousComposition2PCTMCs"]}
{"id": "C167", "title": "Giving values before or after composing is the same", "statement": "Composing two parametric CTMCs and then instantiating the parameters gives the same states, labels, initial rates and rates (as returned by the evaluation of the transitions) as composing with synchronousCompositionCTMCs the CTMCs obtained for these values; instantiate accepts the values whenever the rates of the parts cannot be negative.", "quantifier": "all pairs of parametric CTMCs with synchronous transitions, all values of the parameters", "why_tests_cant": "two different composition functions and symbolic evaluation must agree for all models and all values; the two results prune different states", "anchors": ["jajapy/pctmc/PCTMC.py:synchronousCompositionPCTMCs", "jajapy/ctmc/CTMC.py:synchronousCompositionCTMCs", "jajapy/pctmc/PCTMC.py:PCTMC.instantiate"]}
{"id": "C168", "title": "The order of a set does not change a composition", "statement": "synchronousCompositionPCTMCs removes the expressions that no transition uses any more, in the order in which Python lists a set of integers. Whatever this order is, the call returns the same model, or raises the same exception.", "quantifier": "every list of PCTMCs with any synchronous transitions, every order of the set", "why_tests_cant": "the order of a set depends on its size and on the history of its table; a test sees one order", "anchors": ["jajapy/pctmc/PCTMC.py:synchronousCompositionPCTMCs (removeUnusedTrans)"]}
{"id": "C169", "title": "Learning fails when no trace can be explained", "statement": "When the initial model gives probability (density) 0 to every training trace, or when the training set is empty, fit raises an exception in the first iteration and returns no model: TypeError for MC, HMM, GoHMM, CTMC and PCTMC; for an MDP ValueError, or TypeError with one process and a non-empty set.", "quantifier": "every model, every set of traces that the model cannot produce, any number of processes, any epsilon and positive max_it", "why_tests_cant": "the sets of traces that a model cannot produce are infinitely many, and the result depends on how the workers' results are filtered", "anchors": ["jajapy/base/BW.py:BW._runProcesses", "jajapy/base/BW.py:BW._update_MC", "jajapy/base/BW.py:BW._update_MDP", "jajapy/base/BW.py:BW._bw"]}
{"id": "C170", "title": "Parameters learned from traces with visible states are the best ones, found at once", "statement": "For a parametric CTMC whose states have pairwise different labels and where no rate mentions two of the parameters to learn or a power of one, fit_parameters on timed traces gives each of these parameters the number of observed moves whose rate mentions it divided by the time spent where such a move could happen, each such time weighted by the rate per unit of the parameter. This needs one iteration, the learning stops by itself within three, the other parameters keep their values, and any other positive values of the learned parameters give the traces a strictly lower likelihood.", "quantifier": "every parametric CTMC of that shape, every set of timed traces it can produce, every subset of the parameters, every positive initial value, any number of processes, any positive epsilon and number of iterations", "why_tests_cant": "models, traces, real values and parameter subsets are infinitely many, and optimality compares with all other values of the parameters", "anchors": ["jajapy/base/BW.py:BW.fit_parameters", "jajapy/base/BW.py:BW._sortParameters", "jajapy/base/BW.py:BW._processWork_PCTMC", "jajapy/base/BW.py:BW._update_PCTMC", "jajapy/base/BW.py:BW._bw"]}
