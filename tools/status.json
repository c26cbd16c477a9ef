{
 "C01": [
  "proved",
  "Exact interval characterisation over R, total for nonnegative vectors with positive sum and draws up to the sum."
 ],
 "C02": [
  "proved",
  "Err IndexError iff the draw exceeds the sum or no entry is positive."
 ],
 "C03": [
  "partial",
  "Refuted: the constructor accepts row sums within 0.0005 of 1, and a draw above the sum raises. Guarded version follows from C01_resolveRandom_total when the sum is at least 1."
 ],
 "C04": [
  "proved",
  "Exact arithmetic; the draws of randint are an argument."
 ],
 "C05": [
  "proved",
  "Exact rule with rounding half to even."
 ],
 "C06": [
  "partial",
  "Refuted by (2,-1); holds when the entries are nonnegative."
 ],
 "C07": [
  "proved",
  "On the domain where sqrt/log do not raise."
 ],
 "C08": [
  "proved",
  "For any type of sequences with decidable equality."
 ],
 "C09": [
  "proved",
  "Needs times >= 1; the theorem suffixed _refuted shows that this hypothesis is needed."
 ],
 "C10": [
  "proved",
  "addSet and += ; multiplicities add for every sequence."
 ],
 "C11": [
  "proved",
  "For sets with distinct stored sequences; the theorem suffixed _refuted shows that this hypothesis is needed."
 ],
 "C12": [
  "proved",
  "Types 0, 1 and 4; list(set(..)) is modelled up to order."
 ],
 "C13": [
  "proved",
  "String traces; sorted() on (sequence, times) pairs."
 ],
 "C14": [
  "partial",
  "Refuted for traces of length 1 (IndexError); proved for length at least 2."
 ],
 "C27": [
  "proved",
  "MC, HMM, CTMC (untimed and timed), MDP, GoHMM; sum over explicitly enumerated paths. For timed CTMC sets the second part describes the filtering of traces with log-probability 0. For untimed traces of a CTMC with a state that cannot be left, the value is the one of exact arithmetic with 0/0 = 0, and numpy returns nan: see C152_ctmc_absorbing_score_refuted."
 ],
 "C28": [
  "proved",
  "MC, HMM, MDP (per action sequence), CTMC (untimed)."
 ],
 "C29": [
  "partial",
  "Proved for MDPs, and for MCs and HMMs whose rows sum to 1 (_partial); refuted for chains with absorbing states, sets that hold the empty trace and empty sets."
 ],
 "C30": [
  "proved",
  "For any per-position weights, hence for all classes using the shared forward matrix."
 ],
 "C31": [
  "proved",
  "MC, HMM, CTMC, MDP, GoHMM."
 ],
 "C32": [
  "partial",
  "Refuted: an impossible trace raises the average log-likelihood of the set (it contributes 0 and counts in the denominator). The exact effect is proved."
 ],
 "C33": [
  "proved",
  "General recursion used by all classes; MC, HMM, MDP, CTMC and GoHMM in terms of paths."
 ],
 "C34": [
  "proved",
  "Any number of rounds and processes."
 ],
 "C37": [
  "proved",
  "MC, HMM, MDP, CTMC (timed) for whole runs; GoHMM per round."
 ],
 "C38": [
  "proved",
  "One round for substochastic chains in terms of path sums, and the whole run in terms of logLikelihood for stochastic chains."
 ],
 "C42": [
  "proved",
  "MC, HMM, MDP, CTMC (timed and untimed) with an explicit bound on the number of rounds; max_it for any class."
 ],
 "C73": [
  "proved",
  "All classes: MC, HMM, MDP, CTMC timed and untimed, GoHMM."
 ],
 "C35": [
  "proved",
  "Whole loop, any number of rounds and processes; transitions, emissions and initial vector. Unvisited states keep their rows."
 ],
 "C39": [
  "proved",
  "One round for substochastic models; whole run measured by logLikelihood for stochastic models."
 ],
 "C36": [
  "proved",
  "Whole loop; availability of actions (row totals) is preserved exactly, untried pairs and unused actions keep their rows."
 ],
 "C40": [
  "proved",
  "One round for substochastic MDPs; whole run measured by MDP.logLikelihood."
 ],
 "C41": [
  "proved",
  "Timed: every round and every run with no fixed rate. Untimed: logLikelihood of the final model is at least that of the initial one, when no state is absorbing."
 ],
 "C45": [
  "partial",
  "Refuted in general: fixed rates of a state with zero expected dwell double at every round. Proved when every state has positive expected dwell."
 ],
 "C46": [
  "partial",
  "Refuted: states visited by the traces get exit rate 1. The exact rule is proved, and a whole run equals the run on the jump chain."
 ],
 "C71": [
  "proved",
  "Gaussian output HMMs. Per round: likelihood of the training set never decreases when old and new standard deviations are positive. Whole run: from a model with positive probabilities and standard deviations and data in which each component takes two values."
 ],
 "C75": [
  "partial",
  "Rows and the initial distribution stay stochastic. The standard deviation of an unvisited state is replaced by its square root, and constant data drive a standard deviation to 0 in two rounds: both are proved as _refuted theorems."
 ],
 "C43": [
  "proved",
  "Small-step model of the pool (submission, workers taking tasks, completion in any order, collection): every schedule is finite, and yields the sequential result; whole learning runs likewise."
 ],
 "C44": [
  "partial",
  "Equal for every number of processes when all training traces are possible (five model classes, whole runs). With an impossible trace one process raises TypeError while several ignore it (_refuted)."
 ],
 "C74": [
  "partial",
  "Holds when all rows sum to 1 (MC, HMM) and always for MDPs; refuted for chains with absorbing states, sets that hold the empty trace and empty sets."
 ],
 "C76": [
  "partial",
  "The reported value is the likelihood before the last update: it lies between the likelihood of the first hypothesis and that of the returned model (proved for MCs, HMMs, MDPs and timed CTMCs), refuted as an equality; max_it=0 raises UnboundLocalError."
 ],
 "C77": [
  "partial",
  "Holds with at least two CPUs; refuted with one. fit itself works on any number of CPUs."
 ],
 "C16": [
  "partial",
  "proved exactly when the constructors accept (MC, MDP, CTMC, HMM, GoHMM); refuted parts: CTMC accepts negative rates, HMM with a list output raises AttributeError, HMM initial vectors leniently accepted"
 ],
 "C17": [
  "partial",
  "accessors return the described values for every valid Python int id and raise otherwise; pi accepts any index (wraps negative ones), refuted; PCTMC.getLabel and GoHMM.mu included (exact errors)"
 ],
 "C18": [
  "partial",
  "holds for CTMC.next; refuted for MC (numpy.int64 ids are rejected by the accessors)"
 ],
 "C19": [
  "proved",
  "createMC builds exactly the described chain, ids in any numbering"
 ],
 "C20": [
  "partial",
  "the rejected inputs are rejected; refuted: initial_state is a position, not an id, and an out of range one is not rejected properly"
 ],
 "C21": [
  "partial",
  "refuted: the caller's label list is extended, so calling twice fails or changes the model"
 ],
 "C22": [
  "partial",
  "proved for chains whose rows are distributions; refuted for absorbing/short rows (run raises)"
 ],
 "C23": [
  "proved",
  "HMM and GoHMM runs follow the drawn path and have positive probability/are built from the drawn samples"
 ],
 "C24": [
  "partial",
  "every completed run is a path with available actions; refuted: a state without available action makes run loop for ever"
 ],
 "C25": [
  "partial",
  "the race picks the smallest sample; refuted when every sample is at least 1024; every generated timed trace has a positive density (C25_ctmc_run_possible)"
 ],
 "C26": [
  "partial",
  "multiset, multiplicities and sizes proved; refuted for traces of length one (IndexError) and MC trace length (param+1 labels); stated for parametric CTMCs too (C26_pctmc_generateSet) and for timed and untimed sets of CTMCs (C26_ctmc_generateSet_partial)"
 ],
 "C60": [
  "proved",
  "interval law of each scheduler, memory update and getProbability; KeyError for a memory state without actions"
 ],
 "C61": [
  "partial",
  "proved for Uniform and FiniteMemory schedulers; refuted for Memoryless (TypeError)"
 ],
 "C62": [
  "partial",
  "refuted: every non-empty sequence raises AttributeError"
 ],
 "C68": [
  "partial",
  "label update proved when the initial state is not involved; stale initial state and length check refuted"
 ],
 "C70": [
  "partial",
  "createHMM/createCTMC/createMDP build the described models; refuted: createCTMC broadcasts an empty initial list"
 ],
 "C72": [
  "partial",
  "refuted: createGoHMM always raises TypeError"
 ],
 "C69": [
  "proved",
  "exact entries for every draw: MC, HMM, CTMC, MDP and GoHMM generators"
 ],
 "C78": [
  "partial",
  "refuted: exit rates are inverses of the drawn integers"
 ],
 "C79": [
  "partial",
  "proved for all states but the initial one when labels fit; refuted from the initial state and when there are more labels than states"
 ],
 "C55": [
  "proved",
  "also: the nodes are exactly the prefixes, parents are right"
 ],
 "C56": [
  "proved",
  "alphas in (0,2]; termination as a bound on the recursion; stormpy output not modelled"
 ],
 "C57": [
  "proved",
  "whatever the merges"
 ],
 "C80": [
  "proved",
  "transition frequencies, determinism, reachability"
 ],
 "C81": [
  "partial",
  "refuted: always AttributeError when output_file_prism is given"
 ],
 "C82": [
  "partial",
  "proved for sets without duplicate sequences; refuted with duplicates"
 ],
 "C83": [
  "partial",
  "proved when traces start with different symbols; refuted for 'init' at later positions"
 ],
 "C84": [
  "partial",
  "the test is exactly the Hoeffding test over the words on the alphabet of the tree; refuted for all words: this alphabet is incomplete"
 ],
 "C15": [
  "proved",
  "any strings (characters below 256), ints, floats read back exactly, nested lists"
 ],
 "C65": [
  "partial",
  "proved for names without line ends and models as built by the constructor; refuted for names with a newline and for stale initial distributions"
 ],
 "C66": [
  "proved",
  "against an independent reader of the Prism language, for MC, CTMC and MDP; a label that is not an identifier gives an unreadable file"
 ],
 "C67": [
  "partial",
  "proved: succeeds exactly when one state is labelled init; refuted with several initial states"
 ],
 "C85": [
  "partial",
  "proved for loadMC and loadMDP; refuted for loadCTMC, loadHMM, loadGoHMM"
 ],
 "C47": [
  "partial",
  "proved for untimed traces, sets of vectors and HMM training; refuted for timed traces, traces with actions, lists of MDP traces and sets where only some traces have init"
 ],
 "C48": [
  "partial",
  "a list is never changed; a Set is changed exactly when it lacks init; refuted by such a Set"
 ],
 "C49": [
  "partial",
  "the rejected pairs are characterised and every usable pair is accepted; refuted: unusable pairs are accepted and the error is RuntimeError"
 ],
 "C54": [
  "partial",
  "the returned chain is the embedded chain; refuted: the CTMC loses its rates"
 ],
 "C50": [
  "partial",
  "True exactly when the rates BEFORE the call are not negative; refuted: negative rates are accepted (C50_refuted), then the model rejects every later instantiation (C50_stuck_refuted)"
 ],
 "C51": [
  "proved",
  "either all the given values are set and nothing else changes, or nothing changes"
 ],
 "C86": [
  "proved",
  "acceptance, contents, initial distribution and parameter values; only ValueError is raised"
 ],
 "C87": [
  "partial",
  "existence and uniqueness of the CTMC, accessors, timed likelihood; refuted: tau of an absorbing state is inf (C87_tau_refuted); impossible timed traces raise ValueError (second part of C87_timed_logLikelihood); an empty set of timed traces raises ZeroDivisionError"
 ],
 "C88": [
  "partial",
  "proved when the rates are not negative and some rate leaves the state; refuted: from an absorbing state next goes to state 0"
 ],
 "C89": [
  "partial",
  "proved for ids 0..n-1 and fewer than 65535 transitions; refuted: other ids collide with the init state, the caller's lists are extended"
 ],
 "C90": [
  "partial",
  "proved when each transition is given once; refuted: an overwritten transition stays listed"
 ],
 "C91": [
  "partial",
  "values within the given bounds, the others unchanged; refuted: the default range is not the documented one"
 ],
 "C52": [
  "partial",
  "exact product for models whose init state is last, n2 <= n1+1, no pair with two self loops, at most 256 expressions; the four guards are shown necessary by the _refuted theorems"
 ],
 "C53": [
  "partial",
  "holds after any number of compositions of at most two models, or without synchronous transitions; refuted: three models with synchronous transitions change later compositions"
 ],
 "C92": [
  "partial",
  "exact product for models whose init state is last, n2 <= n1+1, no self loop of the first model facing a state without one, no synchronous transition on top of a transition with a parameter, fewer than 65536 expressions; refuted: the values of the second model are dropped, self loops lost, larger second model, third model, ValueError for a synchronous transition on top of a parametric one (C92_sync_on_parameter_refuted; C92_sync_on_parameter: this guard is exactly when the composition succeeds)"
 ],
 "C58": [
  "partial",
  "Proved when every action is tried wherever a trace goes on; refuted in general."
 ],
 "C59": [
  "partial",
  "Proved for actions met after a single one of the merged prefixes; refuted in general."
 ],
 "C93": [
  "proved",
  "For sets of alternating traces with at least one action."
 ],
 "C94": [
  "proved",
  "Each weight is that of one representative prefix (see C59)."
 ],
 "C95": [
  "partial",
  "Proved when every action is tried wherever a trace goes on and all traces start alike; both conditions are needed (refutations)."
 ],
 "C96": [
  "partial",
  "Proved for traces without the label 'init'; for traces starting with 'init' there are always two initial states (C96_refuted)."
 ],
 "C97": [
  "partial",
  "Refuted for every training set: only the negation is proved."
 ],
 "C98": [
  "partial",
  "The test is characterised exactly on the prefix tree; it ignores observations seen from one state only (refutation)."
 ],
 "C99": [
  "proved",
  "exact content of the tree for all sets"
 ],
 "C63": [
  "partial",
  "Proved for states used at least once; in a state never used the weights are not numbers and the first action is always chosen (refutation)."
 ],
 "C64": [
  "partial",
  "Refuted: the rate has no effect at all (fit with any two nonzero rates is equal); the merge itself is the convex combination on two different objects; value of the dynamic rate."
 ],
 "C100": [
  "proved",
  "belief as a sum over paths, counts as expected uses, for all histories"
 ],
 "C101": [
  "partial",
  "Proved with several processes; with one process it always raises ValueError (refutation)."
 ],
 "C102": [
  "proved",
  "for all hypotheses, strategies and draws; completed samples"
 ],
 "C103": [
  "partial",
  "Exact set of the actions that can be proposed; progress when one is available; refutation: otherwise the loop never ends."
 ],
 "C104": [
  "partial",
  "The final multiset is characterised exactly; the object of the caller is the one extended, so \"not changed\" is false as soon as a run is sampled."
 ],
 "C105": [
  "partial",
  "Proved for learning rate 0 and several processes; refuted for the default arguments without stormpy, for lists and for one process."
 ],
 "C106": [
  "proved",
  "any rate for validity, rate 0 for the likelihood, all numbers of iterations"
 ],
 "C107": [
  "proved",
  "timed traces; untimed traces when every state can be left with a rate that is not estimated; the numerical root finder is an assumption (solver)"
 ],
 "C108": [
  "proved",
  "for every round of every history, both kinds of traces; rates that are products (see C114 for sums)"
 ],
 "C109": [
  "proved",
  "about the model after its reduction to the states with observed labels"
 ],
 "C110": [
  "proved",
  "explicit bound on the number of rounds; success when no equation has to be solved numerically"
 ],
 "C111": [
  "partial",
  "Refuted: on a new object every call raises (with valid arguments AttributeError, exact theorem), after removing states of the caller's model."
 ],
 "C112": [
  "partial",
  "Refuted for the default arguments, for untimed traces and for timed traces with an estimated transition: never returns a model; the exception for untimed traces is TypeError (C112_fit_untimed_exception). With update_constant (the default) fit also never returns when a stored number is not used by any transition (C112_fit_unused_refuted), which createPCTMC produces as soon as two transitions have equal numeric rates, or one has the rate 1 given to the added initial transition (C112_equal_rates, C112_fit_equal_rates_refuted). What a round does to numbers on timed traces of two observations, the remaining case: exact for a number used by one transition of a state that traces do not return to with the same label (C112_constants_two_labels_partial), and the likelihood does not fall if all rates are such numbers (C112_constants_likelihood_partial), or have parameters that are all fixed (C112_constants_fixed_parameters_partial; missing: numbers and parameters estimated together); rates with a parameter are kept for all traces (C112_constants_keep_expressions); a number used twice is estimated from its first use and the likelihood may fall (C112_constants_shared_refuted). The formula is false without the no-return hypothesis, for instance with a self-loop on the source (C112_constants_return_refuted)."
 ],
 "C113": [
  "partial",
  "Refuted: all parameters are estimated again, a parameter given by the caller changes."
 ],
 "C114": [
  "partial",
  "Refuted: the constant is ignored and a round can decrease the likelihood; products are covered by C108."
 ],
 "C115": [
  "partial",
  "One positive solution for every degree; the kept root is this solution up to degree 3; refuted at degree 4, where a complex root is kept and the round raises."
 ],
 "C116": [
  "partial",
  "Reduced model characterised exactly; likelihood and the guarantee of fit_parameters carry over when no kept state can move to a removed state; refuted otherwise, and for parameters which are only used by removed states."
 ],
 "C117": [
  "partial",
  "Exact condition on the history: equal to a new object when it holds, never a result otherwise (refutation for all inputs)."
 ],
 "C118": [
  "partial",
  "Refuted: one such trace and no CTMC is learned; with two observations or more the rounds are those of the other theorems."
 ],
 "C119": [
  "partial",
  "Round trip for every constructed model, with the rates as sympify reads their texts back; refuted for synchronous transitions, which are not written."
 ],
 "C120": [
  "partial",
  "The file is read back with exactly the constants, transitions, labels and initial state; refuted for the range of the variable (one state too many) and for several initial states (IndexError)."
 ],
 "C121": [
  "partial",
  "Success conditions, labels, transitions and initial distribution for every sparse DTMC and CTMC; refuted for several initial states with other labels (ValueError) and for telling labels apart (a_b against a and b), proved when no label contains an underscore."
 ],
 "C122": [
  "proved",
  "For every sparse Markov chain with one initial state carrying another label, traces of every length."
 ],
 "C123": [
  "proved",
  "For every constructed model; a state labelled deadlock comes back as empty, the name becomes unknown_MC or unknown_CTMC (part of the statement). CTMC: no exit rate is 0 (numpy would divide by 0)."
 ],
 "C124": [
  "partial",
  "Import: exact characterisation of when a rate is kept; export: jump probabilities next to exit rates. Both refuted in the convention of stormpy (entries are rates)."
 ],
 "C125": [
  "partial",
  "Transitions, number and names for every order of the set; names match the actions when the set is listed by ids; refuted for another order and for equal names."
 ],
 "C126": [
  "partial",
  "Round trip up to the order of the names, exact labels of the choices; refuted when the set is listed in another order, and only the choices of state 0 are named."
 ],
 "C127": [
  "proved",
  "For every well-formed model whose used parameters are listed. C127_PCTMCtoStormpy composes it with the export C124."
 ],
 "C128": [
  "proved",
  "For every sparse parametric CTMC with fewer than 65535 transitions (indexes are uint16), for every gather_variables that lists the variables which occur once."
 ],
 "C129": [
  "partial",
  "Proved for Markov chains, MDPs and CTMCs with self loops (support is exactly characterised, random_initial_state included). CTMCs without self loops, the default of fit: proved for traces without repeated label, refuted for traces that repeat a label when there is one state per label."
 ],
 "C130": [
  "partial",
  "Proved for random_initial_state=True and nb_states not less than the number of labels. Refuted with fewer states, and with random_initial_state=False when two sequences start with different labels: one process raises, several processes return a chain in which a training sequence is impossible."
 ],
 "C131": [
  "partial",
  "Proved for self_loop=True and traces that start with init. Refuted for the default self_loop when a trace repeats a label, and for traces without init. Without the bounds fit raises RuntimeError (proved)."
 ],
 "C132": [
  "partial",
  "Proved for random_initial_state=True, traces that start with init and nb_states not less than the number of labels. Refuted otherwise as C130."
 ],
 "C133": [
  "partial",
  "Proved for MCs, HMMs, MDPs and CTMCs (timed sets; untimed sets without absorbing states or fixed rates). For GoHMMs proved for one round in general, and for a whole fit when the initial model has no zero and each component of the observations takes two values (otherwise a standard deviation can become 0)."
 ],
 "C134": [
  "partial",
  "Proved for MCs, HMMs, MDPs, CTMCs (timed sets; untimed sets without absorbing states or fixed rates) including simulation (for CTMCs when some sample of each race is below 1024, C25). For GoHMMs: one round when the deviations stay positive, a whole fit of complete models on varied observations."
 ],
 "C135": [
  "partial",
  "Proved for random_initial_state=True (the default), dimension at least 1, nb_distributions absent or equal to the dimension, every component taking two values in the set (otherwise a deviation becomes 0, see C75). Refuted for sets of unknown kind: AttributeError."
 ],
 "C136": [
  "partial",
  "Proved in exact arithmetic; refuted in double precision (Coq's primitive binary64 floats): from 1075 tosses on logLikelihood is 0, fit raises TypeError (one process) or ignores the trace (several); a row of seven 1/7 makes run raise IndexError for the largest draw."
 ],
 "C137": [
  "proved",
  "Double precision (primitive binary64 floats) for zeros and simulation, any arithmetic for the number of processes and prefix sharing. numpy's longdouble (timed CTMCs, GoHMMs) is taken to be double. One process is the hypothesis: with several, a trace whose worker fails is dropped (C44, C136). Alphabets and actions without repetition, as after construction (C16).",
  [
   "C30_prefix_sharing",
   "C30_prefix_sharing_mdp"
  ]
 ],
 "C138": [
  "partial",
  "Proved for names and labels on one line (actions without ')', observations without ':'). Refuted: a transition of 1/20000 is not shown, so two accepted chains with different transitions print the same text; a label with an end of line shows a transition that does not exist. str and round of numbers are abstract."
 ],
 "C139": [
  "proved",
  "Volumes of boxes of draws; the draws of random() are given as a sequence. MDPs: uniform scheduler, every action available in every state; other schedulers and unavailable actions are C155. CTMCs and GoHMMs draw from continuous distributions: C151 and C154."
 ],
 "C140": [
  "partial",
  "Proved for ids of states, the default and, for HMMs, invalid ids. Refuted: MDP.getActions accepts negative ids and counts from the end. Parametric CTMCs: getAlphabet lists every label once."
 ],
 "C141": [
  "proved",
  "Spec: the reader of SPrint.v. Numbers, expressions and the text of an evaluated sympy number are abstract texts without end of line."
 ],
 "C142": [
  "partial",
  "Integers are kept when the first set is not empty; refuted for a set grown from an empty one (numpy appends to an empty list as floats): to_list raises TypeError and the saved file cannot be loaded."
 ],
 "C143": [
  "proved",
  "Riemann integrals of the standard library; states with a positive exit rate; C143_lkl_absorbing for the others."
 ],
 "C144": [
  "partial",
  "Proved for one round, for the whole loop and for the likelihood of MCs, HMMs, MDPs, CTMCs (timed traces in any unit of time, untimed ones) and GoHMMs. The threshold output_epsilon is compared with a difference of total log-likelihoods, so it is multiplied by the same number as the counts. For GoHMMs the unit of a component may change when every state is visited (complete models); refuted for a state without expected visits, whose deviation is replaced by its square root. Untimed CTMC learning sets the exit rates of visited states to 1, so only the chain itself (not its unit of time) corresponds."
 ],
 "C145": [
  "partial",
  "Gain, strict improvement, stopping and summed moves for MC, HMM, MDP, CTMC (timed; untimed through the jump chain) and GoHMM. Strict improvement needs, for CTMCs, that fixed rates belong to states the traces spend time in (others are doubled at every round without any gain: C145_ctmc_timed_strict_refuted) and, for GoHMMs, that every state is visited and deviations stay positive. Runs of GoHMM learning under the conditions of C75. For parametric CTMCs: strictness for the parameters with a positive exposure on timed traces (C145_pctmc_timed_strict), and for the parameters of states with a positive expected number of visits on untimed traces (C145_pctmc_untimed_strict)."
 ],
 "C146": [
  "partial",
  "Stationary iff unchanged, and strict ascent otherwise, for MC, HMM, MDP, CTMC (timed; untimed through the jump chain) and GoHMM. Timed CTMCs need positive dwell times: with a dwell time of zero a round returns a model unchanged although the likelihood rises (C146_ctmc_timed_stationary_refuted); fixed rates must belong to states the traces spend time in (C45). Parametric CTMCs (timed): the derivative in one parameter (C146_pctmc_slope), a round moves each exposed parameter in the direction of its sign (C146_pctmc_direction), and it is 0 for a parameter that is left unchanged (C146_pctmc_stationary). The same on untimed traces for the parameters the traces use (C146_pctmc_untimed_slope, C146_pctmc_untimed_direction), and 0 for those left unchanged (C146_pctmc_untimed_stationary). GoHMMs need every state to be visited (C75)."
 ],
 "C147": [
  "partial",
  "run from a chosen state is run of the model started there, for MC, HMM, GoHMM and MDP (any scheduler); ids out of range raise. The last sentence fails for timed=True on untimed models (C147_*_generate_timed_refuted)."
 ],
 "C148": [
  "partial",
  "Existence of endless runs, limits unchanged by a round and stationary, convergence of the log-likelihoods, for MC, HMM, MDP, CTMC (timed; untimed through the jump chain) and GoHMM (limits with positive deviations and all states visited); existence of a limit for MC, HMM, MDP and CTMC without fixed rates. With a fixed rate in a state never visited there is no limit (C148_ctmc_timed_converges_refuted). Existence of a limit is not claimed for GoHMM: its likelihood is not bounded and deviations may approach 0."
 ],
 "C149": [
  "partial",
  "MDPs and timed CTMCs: exact frequencies after one round, for every trace set possible under the initial model; MC: formula of a round, geometric convergence, optimality of the frequencies among all chains with the same states. C149_mc_one_round_refuted: for MCs one round does not give the frequencies, because a trace is read as if an unobserved move followed its last label. CTMC optimality needs positive times (with a zero time the likelihood has no maximum). C149_mdp_fit, C149_ctmc_timed_fit: the whole fit stops within three iterations for every positive threshold and returns these frequencies. C149_ctmc_untimed_rate, _converges, _optimal: CTMCs from traces without times, for the jump probabilities. C149_mc_unique, _mdp_unique, _ctmc_timed_unique, _ctmc_untimed_unique: any other model scores strictly lower."
 ],
 "C150": [
  "partial",
  "All pairs of MCs, HMMs and untimed CTMCs of any sizes, and MDPs for each action sequence: bound by minus the entropy with the case of equality, generator best on sets with exact shares and in expectation. C150_impossible_traces_refuted: without the hypothesis that the other model can emit the traces the claim fails, because impossible traces are ignored. Densities (timed CTMC, GoHMM) are not covered."
 ],
 "C151": [
  "partial",
  "Exact characterisation of next and run by races between the samples, densities and integrals, and the density of logLikelihood as the density of the run, for times below 1024. C151_ctmc_long_times_refuted: in a state with a rate of 0 the simulation never returns a time over 1024 and takes a transition of rate 0 instead. That the density of independent exponential samples is the product of the densities is the specification (SRace.v), not derived from a measure space."
 ],
 "C152": [
  "partial",
  "The arithmetic of numpy without rounding (MExt.v): real numbers, +inf, -inf and nan. Learning: MC, MDP and timed CTMC without conditions, HMM and GoHMM with the expected shapes and signs, untimed CTMC when every state can be left. Scores of all classes. C152_ctmc_untimed_absorbing_refuted and C152_ctmc_absorbing_score_refuted: with a state that cannot be left, learning a CTMC from untimed traces turns every rate into nan and never converges, and every score is nan. Rounding (overflow, underflow) is outside, see C137."
 ],
 "C153": [
  "partial",
  "CTMCs whose states can all be left: both versions, and parametric CTMCs with one process. C153_pctmc_untimed_refuted: with several processes every non-empty set raises AttributeError (PCTMC has no method b). C153_pctmc_single_process_refuted: with one process, a state that cannot be left makes every score 0. With an absorbing state the score of a CTMC is nan (C152). When every state has its exit rate is modelled; a parametric CTMC with a parameter missing from its list of parameters is modelled as TypeError."
 ],
 "C154": [
  "proved",
  "numpy.random.normal(mu, sigma) is mu + sigma times a standard sample; that independent samples have the product of the densities is the specification (SGauss.v). Standard deviations are positive (numpy raises ValueError for negative ones, not modelled)."
 ],
 "C155": [
  "proved",
  "Any scheduler described by distributions over actions for each of its states and a transition on observations; the two schedulers of the library that run accepts are instances. Memoryless schedulers make run raise TypeError (C24). The set of draws is a growing union of boxes (one stage for each bound on the refusals), with the limit of the volumes."
 ],
 "C156": [
  "proved",
  "MC, HMM and MDP. For MDPs all actions are available in all states: otherwise the actions played tell which state was reached, and the frequencies given the actions are not those of the model. Exact real arithmetic. Continuous observations and dwell times (GoHMM, CTMC) have no finite set with exact frequencies."
 ],
 "C157": [
  "proved",
  "C157_extensions and C157_longer_trace_score for MCs, HMMs and CTMCs (untimed) with distributions as rows (non-zero exit rates for CTMCs); C157_mdp_extensions: the sum for actions that are available everywhere, the inequality whenever the rows sum to at most 1. Joined sets: the first set holds distinct sequences, both are non-empty with positive counts and no empty trace."
 ],
 "C158": [
  "partial",
  "C158_order, C158_parts_alone under the conditions of C52_ctmc_composition_partial (label init last, sizes, no two self loops, at most 256 expressions). Without them the composition itself is wrong or fails: C52_larger_second_refuted shows that one of the two orders always raises when the sizes differ by 2 or more.",
  [
   "C52_larger_second_refuted"
  ]
 ],
 "C159": [
  "proved",
  "alphas in (0,2] and traces readable by Alergia (C83); the set is scored as the chain reads it, with init in front. The comparison needs the training traces to be possible under the other chain (logLikelihood skips impossible traces, C150_impossible_traces_refuted)."
 ],
 "C160": [
  "proved",
  "exact arithmetic; sizes given as one integer; random() as a sequence of independent uniform values, so a probability is a volume of boxes (C160_chance: determined by the event). The comparison needs y to emit what x emits (C150_impossible_traces_refuted)."
 ],
 "C161": [
  "proved",
  "exact arithmetic; fully observed chains (distinct labels), traces of one length; rounds without the early stop of fit (the stop is by likelihood gain, C145). Transitions of states that no trace can leave are not determined by the traces and are not claimed."
 ],
 "C162": [
  "proved",
  "exact arithmetic; fully observed MDPs (distinct labels) in which every action is available everywhere, uniform scheduler, traces of one length. State-action pairs that no trace can try are not determined by the traces and are not claimed."
 ],
 "C163": [
  "partial",
  "proved as stated for all texts; the checks are those of the constructors, so a file with negative rates is loaded (refuted witness). Values of other kinds than lists of strings and numbers (which array() might accept) are errors in the model."
 ],
 "C164": [
  "partial",
  "Proved for the six model classes. Refuted for sets: a cut set file is loaded as the beginning of the set, and without its last newline the last count loses its last digit (12 becomes 1); C164_Set_cut_partial says exactly what can be loaded."
 ],
 "C165": [
  "partial",
  "Proved for any number of models without self loops, none with more than one state more than the first, and at most 254 combinations. Beyond these limits the code fails (C92_larger_second_refuted, C92_self_loop_refuted), a third model does not synchronise (C92_third_model_refuted) and only the values of the first model are kept (C92_second_values_refuted).",
  [
   "C92_larger_second_refuted",
   "C92_self_loop_refuted",
   "C92_third_model_refuted",
   "C92_second_values_refuted"
  ]
 ],
 "C166": [
  "partial",
  "Proved under the limits of C165 (no self loops, sizes, at most 254 combinations). Beyond them the order matters: a larger second model fails (C92_larger_second_refuted) and the values kept are those of the first model (C92_second_values_refuted).",
  [
   "C92_larger_second_refuted",
   "C92_second_values_refuted"
  ]
 ],
 "C167": [
  "partial",
  "Proved for a first model without self loops and under the size limits of the two functions (8-bit references for CTMCs: C52_wrap_refuted; two self loops: C52_two_self_loops_refuted). No synchronous transition on top of a parametric one (C92_sync_on_parameter_refuted). Values that only the second model has are lost by the composition (C92_second_values_refuted).",
  [
   "C52_wrap_refuted",
   "C52_two_self_loops_refuted",
   "C92_second_values_refuted",
   "C92_sync_on_parameter_refuted"
  ]
 ],
 "C168": [
  "proved",
  "The other set of the function, the names of the parameters, is an argument of the model (see C166)."
 ],
 "C169": [
  "proved",
  "For a GoHMM only the empty set (densities are positive). CTMCs and parametric CTMCs, timed and untimed."
 ],
 "C170": [
  "proved",
  "Real arithmetic. Timed traces, every trace with at least one move, and every learned parameter must have positive exposure (otherwise the code divides by zero or keeps the old value, C107/C112). C170_round also covers one iteration, C170_closed_form the formula, C170_optimal the comparison with all other positive values, C170_unique the uniqueness."
 ]
}