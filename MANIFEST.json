{
 "claims": [
  {
   "property": "C01",
   "status": "proved",
   "theorems": [
    "C01_resolveRandom_inverse_cdf",
    "C01_resolveRandom_total"
   ],
   "note": "Exact interval characterisation over R, total for nonnegative vectors with positive sum and draws up to the sum."
  },
  {
   "property": "C02",
   "status": "proved",
   "theorems": [
    "C02_resolveRandom_failure"
   ],
   "note": "Err IndexError iff the draw exceeds the sum or no entry is positive."
  },
  {
   "property": "C03",
   "status": "partial",
   "theorems": [
    "C03_accepted_row_can_raise_refuted"
   ],
   "note": "Refuted: the constructor accepts row sums within 0.0005 of 1, and a draw above the sum raises. Guarded version follows from C01_resolveRandom_total when the sum is at least 1."
  },
  {
   "property": "C04",
   "status": "proved",
   "theorems": [
    "C04_normalize",
    "C04_randomProbabilities_dist",
    "C04_randomProbabilities_errors"
   ],
   "note": "Exact arithmetic; the draws of randint are an argument."
  },
  {
   "property": "C05",
   "status": "proved",
   "theorems": [
    "C05_checkProbabilities_rule"
   ],
   "note": "Exact rule with rounding half to even."
  },
  {
   "property": "C06",
   "status": "partial",
   "theorems": [
    "C06_checkProbabilities_refuted",
    "C06_checkProbabilities_partial"
   ],
   "note": "Refuted by (2,-1); holds when the entries are nonnegative."
  },
  {
   "property": "C07",
   "status": "proved",
   "theorems": [
    "C07_hoeffding_characterisation",
    "C07_hoeffding_symmetric",
    "C07_hoeffding_equal_frequencies",
    "C07_hoeffding_monotone"
   ],
   "note": "On the domain where sqrt/log do not raise."
  },
  {
   "property": "C08",
   "status": "proved",
   "theorems": [
    "C08_setFromList_is_multiset"
   ],
   "note": "For any type of sequences with decidable equality."
  },
  {
   "property": "C09",
   "status": "proved",
   "theorems": [
    "C09_to_list_inverts_set",
    "C09_to_list_multiplicities",
    "C09_to_list_zero_times_refuted"
   ],
   "note": "Needs times >= 1; the theorem suffixed _refuted shows that this hypothesis is needed."
  },
  {
   "property": "C10",
   "status": "proved",
   "theorems": [
    "C10_addSet_adds_multiplicities",
    "C10_addSet_type_error"
   ],
   "note": "addSet and += ; multiplicities add for every sequence."
  },
  {
   "property": "C11",
   "status": "proved",
   "theorems": [
    "C11_isEqual_is_multiset_equality",
    "C11_isEqual_positive_times",
    "C11_isEqual_duplicates_refuted",
    "C11_isEqual_error"
   ],
   "note": "For sets with distinct stored sequences; the theorem suffixed _refuted shows that this hypothesis is needed."
  },
  {
   "property": "C12",
   "status": "proved",
   "theorems": [
    "C12_getAlphabet_timed",
    "C12_getAlphabet_untimed",
    "C12_getAlphabet_mdp",
    "C12_actions_observations"
   ],
   "note": "Types 0, 1 and 4; list(set(..)) is modelled up to order."
  },
  {
   "property": "C13",
   "status": "proved",
   "theorems": [
    "C13_sort_reorders"
   ],
   "note": "String traces; sorted() on (sequence, times) pairs."
  },
  {
   "property": "C14",
   "status": "partial",
   "theorems": [
    "C14_type_inference_partial",
    "C14_single_observation_refuted"
   ],
   "note": "Refuted for traces of length 1 (IndexError); proved for length at least 2."
  },
  {
   "property": "C15",
   "status": "proved",
   "theorems": [
    "C15_written_strings",
    "C15_save_load"
   ],
   "note": "any strings (characters below 256), ints, floats read back exactly, nested lists"
  },
  {
   "property": "C16",
   "status": "partial",
   "theorems": [
    "C16_MC_constructor",
    "C16_MDP_constructor",
    "C16_CTMC_constructor",
    "C16_CTMC_negative_rate_refuted",
    "C16_HMM_constructor",
    "C16_HMM_list_output_refuted",
    "C16_HMM_initial_refuted",
    "C16_GoHMM_constructor",
    "C16_HMM_bad_row"
   ],
   "note": "proved exactly when the constructors accept (MC, MDP, CTMC, HMM, GoHMM); refuted parts: CTMC accepts negative rates, HMM with a list output raises AttributeError, HMM initial vectors leniently accepted"
  },
  {
   "property": "C17",
   "status": "partial",
   "theorems": [
    "C17_MC_accessors",
    "C17_HMM_accessors",
    "C17_MDP_accessors",
    "C17_CTMC_accessors",
    "C17_pi_wraps_refuted",
    "C17_pctmc_getLabel",
    "C17_GoHMM_mu"
   ],
   "note": "accessors return the described values for every valid Python int id and raise otherwise; pi accepts any index (wraps negative ones), refuted; PCTMC.getLabel and GoHMM.mu included (exact errors)"
  },
  {
   "property": "C18",
   "status": "partial",
   "theorems": [
    "C18_mc_next_id_refuted",
    "C18_ctmc_next_id"
   ],
   "note": "holds for CTMC.next; refuted for MC (numpy.int64 ids are rejected by the accessors)"
  },
  {
   "property": "C19",
   "status": "proved",
   "theorems": [
    "C19_createMC",
    "C19_createMC_ids"
   ],
   "note": "createMC builds exactly the described chain, ids in any numbering"
  },
  {
   "property": "C20",
   "status": "partial",
   "theorems": [
    "C20_createMC_rejects",
    "C20_initial_id_refuted",
    "C20_initial_out_of_range_refuted"
   ],
   "note": "the rejected inputs are rejected; refuted: initial_state is a position, not an id, and an out of range one is not rejected properly"
  },
  {
   "property": "C21",
   "status": "partial",
   "theorems": [
    "C21_create_twice_refuted"
   ],
   "note": "refuted: the caller's label list is extended, so calling twice fails or changes the model"
  },
  {
   "property": "C22",
   "status": "partial",
   "theorems": [
    "C22_mc_run",
    "C22_mc_run_possible",
    "C22_run_raises_refuted"
   ],
   "note": "proved for chains whose rows are distributions; refuted for absorbing/short rows (run raises)"
  },
  {
   "property": "C23",
   "status": "proved",
   "theorems": [
    "C23_hmm_run",
    "C23_hmm_run_possible",
    "C23_gohmm_run"
   ],
   "note": "HMM and GoHMM runs follow the drawn path and have positive probability/are built from the drawn samples"
  },
  {
   "property": "C24",
   "status": "partial",
   "theorems": [
    "C24_mdp_run",
    "C24_mdp_run_possible",
    "C24_no_action_refuted"
   ],
   "note": "every completed run is a path with available actions; refuted: a state without available action makes run loop for ever"
  },
  {
   "property": "C25",
   "status": "partial",
   "theorems": [
    "C25_ctmc_next_partial",
    "C25_ctmc_next_refuted",
    "C25_ctmc_run_partial",
    "C25_ctmc_run_possible"
   ],
   "note": "the race picks the smallest sample; refuted when every sample is at least 1024; every generated timed trace has a positive density (C25_ctmc_run_possible)"
  },
  {
   "property": "C26",
   "status": "partial",
   "theorems": [
    "C26_pctmc_generateSet",
    "C26_generateSet",
    "C26_generateSet_set",
    "C26_length_one_refuted",
    "C26_mc_length_refuted",
    "C26_bad_param",
    "C26_ctmc_generateSet_partial"
   ],
   "note": "multiset, multiplicities and sizes proved; refuted for traces of length one (IndexError) and MC trace length (param+1 labels); stated for parametric CTMCs too (C26_pctmc_generateSet) and for timed and untimed sets of CTMCs (C26_ctmc_generateSet_partial)"
  },
  {
   "property": "C27",
   "status": "proved",
   "theorems": [
    "C27_mc_logLikelihood",
    "C27_hmm_logLikelihood",
    "C27_ctmc_logLikelihood",
    "C27_gohmm_logLikelihood",
    "C27_mdp_logLikelihood",
    "C27_ctmc_timed_logLikelihood",
    "C27_gohmm_point_mass",
    "C27_gohmm_point_mass_value"
   ],
   "note": "MC, HMM, CTMC (untimed and timed), MDP, GoHMM; sum over explicitly enumerated paths. For timed CTMC sets the second part describes the filtering of traces with log-probability 0. For untimed traces of a CTMC with a state that cannot be left, the value is the one of exact arithmetic with 0/0 = 0, and numpy returns nan: see C152_ctmc_absorbing_score_refuted."
  },
  {
   "property": "C28",
   "status": "proved",
   "theorems": [
    "C28_mc_distribution",
    "C28_hmm_distribution",
    "C28_mdp_distribution",
    "C28_ctmc_distribution",
    "C28_mc_logLikelihood_nonpositive"
   ],
   "note": "MC, HMM, MDP (per action sequence), CTMC (untimed)."
  },
  {
   "property": "C29",
   "status": "partial",
   "theorems": [
    "C29_mc_single_process_value",
    "C29_mc_platform_independent_partial",
    "C29_hmm_platform_independent_partial",
    "C29_mdp_platform_independent",
    "C29_platform_dependence_refuted",
    "C29_empty_trace",
    "C29_empty_trace_refuted",
    "C29_empty_set_refuted"
   ],
   "note": "Proved for MDPs, and for MCs and HMMs whose rows sum to 1 (_partial); refuted for chains with absorbing states, sets that hold the empty trace and empty sets."
  },
  {
   "property": "C30",
   "status": "proved",
   "theorems": [
    "C30_prefix_sharing",
    "C30_prefix_sharing_mdp",
    "C30_forward_values"
   ],
   "note": "For any per-position weights, hence for all classes using the shared forward matrix."
  },
  {
   "property": "C31",
   "status": "proved",
   "theorems": [
    "C31_mc_multiset",
    "C31_hmm_multiset",
    "C31_ctmc_multiset",
    "C31_mdp_multiset",
    "C31_gohmm_multiset"
   ],
   "note": "MC, HMM, CTMC, MDP, GoHMM."
  },
  {
   "property": "C32",
   "status": "partial",
   "theorems": [
    "C32_impossible_trace_effect_refuted",
    "C32_impossible_trace_raises_refuted"
   ],
   "note": "Refuted: an impossible trace raises the average log-likelihood of the set (it contributes 0 and counts in the denominator). The exact effect is proved."
  },
  {
   "property": "C33",
   "status": "proved",
   "theorems": [
    "C33_ctmc_timed_forward_backward",
    "C33_gohmm_forward_backward",
    "C33_hmm_forward_backward",
    "C33_forward_backward",
    "C33_mc_forward_backward",
    "C33_mdp_forward_backward"
   ],
   "note": "General recursion used by all classes; MC, HMM, MDP, CTMC and GoHMM in terms of paths."
  },
  {
   "property": "C34",
   "status": "proved",
   "theorems": [
    "C34_mc_learning_stochastic",
    "C34_mc_learning_stochastic_or_empty",
    "C34_mc_unvisited_round",
    "C34_mc_unvisited_label"
   ],
   "note": "Any number of rounds and processes."
  },
  {
   "property": "C35",
   "status": "proved",
   "theorems": [
    "C35_hmm_learning_stochastic",
    "C35_hmm_unvisited_round"
   ],
   "note": "Whole loop, any number of rounds and processes; transitions, emissions and initial vector. Unvisited states keep their rows."
  },
  {
   "property": "C36",
   "status": "proved",
   "theorems": [
    "C36_mdp_learning_stochastic",
    "C36_mdp_untried_round",
    "C36_mdp_unused_action"
   ],
   "note": "Whole loop; availability of actions (row totals) is preserved exactly, untried pairs and unused actions keep their rows."
  },
  {
   "property": "C37",
   "status": "proved",
   "theorems": [
    "C37_ctmc_timed_zero_stays_zero",
    "C37_gohmm_zero_stays_zero",
    "C37_hmm_zero_stays_zero",
    "C37_mc_zero_stays_zero",
    "C37_mdp_zero_stays_zero"
   ],
   "note": "MC, HMM, MDP, CTMC (timed) for whole runs; GoHMM per round."
  },
  {
   "property": "C38",
   "status": "proved",
   "theorems": [
    "C38_mc_round_likelihood",
    "C38_mc_fit_improves_logLikelihood"
   ],
   "note": "One round for substochastic chains in terms of path sums, and the whole run in terms of logLikelihood for stochastic chains."
  },
  {
   "property": "C39",
   "status": "proved",
   "theorems": [
    "C39_hmm_round_likelihood",
    "C39_hmm_fit_improves_logLikelihood"
   ],
   "note": "One round for substochastic models; whole run measured by logLikelihood for stochastic models."
  },
  {
   "property": "C40",
   "status": "proved",
   "theorems": [
    "C40_mdp_round_likelihood",
    "C40_mdp_fit_improves_logLikelihood"
   ],
   "note": "One round for substochastic MDPs; whole run measured by MDP.logLikelihood."
  },
  {
   "property": "C41",
   "status": "proved",
   "theorems": [
    "C41_ctmc_timed_round_likelihood",
    "C41_ctmc_timed_fit_likelihood",
    "C41_ctmc_untimed_fit_improves_logLikelihood"
   ],
   "note": "Timed: every round and every run with no fixed rate. Untimed: logLikelihood of the final model is at least that of the initial one, when no state is absorbing."
  },
  {
   "property": "C42",
   "status": "proved",
   "theorems": [
    "C42_ctmc_timed_terminates",
    "C42_ctmc_untimed_terminates",
    "C42_hmm_terminates",
    "C42_mc_terminates",
    "C42_max_it",
    "C42_mdp_terminates"
   ],
   "note": "MC, HMM, MDP, CTMC (timed and untimed) with an explicit bound on the number of rounds; max_it for any class."
  },
  {
   "property": "C43",
   "status": "proved",
   "theorems": [
    "C43_pool_any_schedule",
    "C43_pool_terminates",
    "C43_learning_any_schedule"
   ],
   "note": "Small-step model of the pool (submission, workers taking tasks, completion in any order, collection): every schedule is finite, and yields the sequential result; whole learning runs likewise."
  },
  {
   "property": "C44",
   "status": "partial",
   "theorems": [
    "C44_mc_processes_agree",
    "C44_hmm_processes_agree",
    "C44_mdp_processes_agree",
    "C44_ctmc_timed_processes_agree",
    "C44_gohmm_processes_agree",
    "C44_mc_one_process_fails",
    "C44_mc_processes_refuted"
   ],
   "note": "Equal for every number of processes when all training traces are possible (five model classes, whole runs). With an impossible trace one process raises TypeError while several ignore it (_refuted)."
  },
  {
   "property": "C45",
   "status": "partial",
   "theorems": [
    "C45_ctmc_fixed_rates_kept",
    "C45_ctmc_fixed_rates_refuted"
   ],
   "note": "Refuted in general: fixed rates of a state with zero expected dwell double at every round. Proved when every state has positive expected dwell."
  },
  {
   "property": "C46",
   "status": "partial",
   "theorems": [
    "C46_ctmc_untimed_exit_rates",
    "C46_ctmc_untimed_run_is_jump_chain_run",
    "C46_ctmc_untimed_exit_rates_refuted"
   ],
   "note": "Refuted: states visited by the traces get exit rate 1. The exact rule is proved, and a whole run equals the run on the jump chain."
  },
  {
   "property": "C47",
   "status": "partial",
   "theorems": [
    "C47_untimed_partial",
    "C47_unchanged_partial",
    "C47_timed_refuted",
    "C47_mdp_refuted",
    "C47_list_refuted",
    "C47_mixed_refuted"
   ],
   "note": "proved for untimed traces, sets of vectors and HMM training; refuted for timed traces, traces with actions, lists of MDP traces and sets where only some traces have init"
  },
  {
   "property": "C48",
   "status": "partial",
   "theorems": [
    "C48_list",
    "C48_set_partial",
    "C48_second_fit",
    "C48_refuted"
   ],
   "note": "a list is never changed; a Set is changed exactly when it lacks init; refuted by such a Set"
  },
  {
   "property": "C49",
   "status": "partial",
   "theorems": [
    "C49_usable_accepted",
    "C49_check_partial",
    "C49_refuted",
    "C49_error_refuted"
   ],
   "note": "the rejected pairs are characterised and every usable pair is accepted; refuted: unusable pairs are accepted and the error is RuntimeError"
  },
  {
   "property": "C50",
   "status": "partial",
   "theorems": [
    "C50_instantiate_partial",
    "C50_refuted",
    "C50_stuck_refuted"
   ],
   "note": "True exactly when the rates BEFORE the call are not negative; refuted: negative rates are accepted (C50_refuted), then the model rejects every later instantiation (C50_stuck_refuted)"
  },
  {
   "property": "C51",
   "status": "proved",
   "theorems": [
    "C51_all_or_nothing"
   ],
   "note": "either all the given values are set and nothing else changes, or nothing changes"
  },
  {
   "property": "C52",
   "status": "partial",
   "theorems": [
    "C52_ctmc_composition_partial",
    "C52_larger_second_refuted",
    "C52_two_self_loops_refuted",
    "C52_wrap_refuted",
    "C52_init_first_refuted"
   ],
   "note": "exact product for models whose init state is last, n2 <= n1+1, no pair with two self loops, at most 256 expressions; the four guards are shown necessary by the _refuted theorems"
  },
  {
   "property": "C53",
   "status": "partial",
   "theorems": [
    "C53_history_partial",
    "C53_history_refuted"
   ],
   "note": "holds after any number of compositions of at most two models, or without synchronous transitions; refuted: three models with synchronous transitions change later compositions"
  },
  {
   "property": "C54",
   "status": "partial",
   "theorems": [
    "C54_toMC_partial",
    "C54_mutation_refuted"
   ],
   "note": "the returned chain is the embedded chain; refuted: the CTMC loses its rates"
  },
  {
   "property": "C55",
   "status": "proved",
   "theorems": [
    "C55_prefix_tree"
   ],
   "note": "also: the nodes are exactly the prefixes, parents are right"
  },
  {
   "property": "C56",
   "status": "proved",
   "theorems": [
    "C56_valid_chain"
   ],
   "note": "alphas in (0,2]; termination as a bound on the recursion; stormpy output not modelled"
  },
  {
   "property": "C57",
   "status": "proved",
   "theorems": [
    "C57_training_traces_possible"
   ],
   "note": "whatever the merges"
  },
  {
   "property": "C58",
   "status": "partial",
   "theorems": [
    "C58_right_action_partial",
    "C58_refuted"
   ],
   "note": "Proved when every action is tried wherever a trace goes on; refuted in general."
  },
  {
   "property": "C59",
   "status": "partial",
   "theorems": [
    "C59_refuted",
    "C59_unmerged_partial"
   ],
   "note": "Proved for actions met after a single one of the merged prefixes; refuted in general."
  },
  {
   "property": "C60",
   "status": "proved",
   "theorems": [
    "C60_uniform",
    "C60_memoryless",
    "C60_finite_memory_reads",
    "C60_finite_memory_action",
    "C60_finite_memory_unknown"
   ],
   "note": "interval law of each scheduler, memory update and getProbability; KeyError for a memory state without actions"
  },
  {
   "property": "C61",
   "status": "partial",
   "theorems": [
    "C61_memoryless_refuted",
    "C61_others"
   ],
   "note": "proved for Uniform and FiniteMemory schedulers; refuted for Memoryless (TypeError)"
  },
  {
   "property": "C62",
   "status": "partial",
   "theorems": [
    "C62_getSequenceStates_refuted"
   ],
   "note": "refuted: every non-empty sequence raises AttributeError"
  },
  {
   "property": "C63",
   "status": "partial",
   "theorems": [
    "C63_weights",
    "C63_single_action",
    "C63_unused_state_refuted"
   ],
   "note": "Proved for states used at least once; in a state never used the weights are not numbers and the first action is always chosen (refutation)."
  },
  {
   "property": "C64",
   "status": "partial",
   "theorems": [
    "C64_rate_has_no_effect_refuted",
    "C64_iteration",
    "C64_merge",
    "C64_merge_stochastic",
    "C64_dynamic_rate",
    "C64_average_refuted"
   ],
   "note": "Refuted: the rate has no effect at all (fit with any two nonzero rates is equal); the merge itself is the convex combination on two different objects; value of the dynamic rate."
  },
  {
   "property": "C65",
   "status": "partial",
   "theorems": [
    "C65_MC_save_load",
    "C65_CTMC_save_load",
    "C65_MDP_save_load",
    "C65_HMM_save_load",
    "C65_GoHMM_save_load",
    "C65_newline_refuted",
    "C65_initial_refuted",
    "C65_unknown_escape"
   ],
   "note": "proved for names without line ends and models as built by the constructor; refuted for names with a newline and for stale initial distributions"
  },
  {
   "property": "C66",
   "status": "proved",
   "theorems": [
    "C66_MC_prism",
    "C66_CTMC_prism",
    "C66_MDP_prism",
    "C66_label_refuted"
   ],
   "note": "against an independent reader of the Prism language, for MC, CTMC and MDP; a label that is not an identifier gives an unreadable file"
  },
  {
   "property": "C67",
   "status": "partial",
   "theorems": [
    "C67_MC_savePrism",
    "C67_CTMC_savePrism",
    "C67_MDP_savePrism",
    "C67_several_initial_refuted"
   ],
   "note": "proved: succeeds exactly when one state is labelled init; refuted with several initial states"
  },
  {
   "property": "C68",
   "status": "partial",
   "theorems": [
    "C68_updateLabelling_partial",
    "C68_initial_stale_refuted",
    "C68_length_refuted"
   ],
   "note": "label update proved when the initial state is not involved; stale initial state and length check refuted"
  },
  {
   "property": "C69",
   "status": "proved",
   "theorems": [
    "C69_MC_random",
    "C69_HMM_random",
    "C69_CTMC_random",
    "C69_MDP_random",
    "C69_reserved_label",
    "C69_GoHMM_random",
    "C69_labels_exact"
   ],
   "note": "exact entries for every draw: MC, HMM, CTMC, MDP and GoHMM generators"
  },
  {
   "property": "C70",
   "status": "partial",
   "theorems": [
    "C70_createHMM",
    "C70_createCTMC",
    "C70_createMDP",
    "C70_createCTMC_broadcast_refuted",
    "C70_createCTMC_wrong_length"
   ],
   "note": "createHMM/createCTMC/createMDP build the described models; refuted: createCTMC broadcasts an empty initial list"
  },
  {
   "property": "C71",
   "status": "proved",
   "theorems": [
    "C71_gohmm_round_likelihood",
    "C71_gohmm_fit_improves_logLikelihood"
   ],
   "note": "Gaussian output HMMs. Per round: likelihood of the training set never decreases when old and new standard deviations are positive. Whole run: from a model with positive probabilities and standard deviations and data in which each component takes two values."
  },
  {
   "property": "C72",
   "status": "partial",
   "theorems": [
    "C72_createGoHMM_refuted"
   ],
   "note": "refuted: createGoHMM always raises TypeError"
  },
  {
   "property": "C73",
   "status": "proved",
   "theorems": [
    "C73_ctmc_timed_round_is_ratio_of_expectations",
    "C73_ctmc_untimed_round_is_ratio_of_expectations",
    "C73_gohmm_round_is_ratio_of_expectations",
    "C73_hmm_round_is_ratio_of_expectations",
    "C73_mc_round_is_ratio_of_expectations",
    "C73_mdp_round_is_ratio_of_expectations"
   ],
   "note": "All classes: MC, HMM, MDP, CTMC timed and untimed, GoHMM."
  },
  {
   "property": "C74",
   "status": "partial",
   "theorems": [
    "C74_mc_traces_used_partial",
    "C74_hmm_traces_used_partial",
    "C74_mdp_traces_used",
    "C74_mc_traces_used_refuted"
   ],
   "note": "Holds when all rows sum to 1 (MC, HMM) and always for MDPs; refuted for chains with absorbing states, sets that hold the empty trace and empty sets."
  },
  {
   "property": "C75",
   "status": "partial",
   "theorems": [
    "C75_gohmm_round_stochastic",
    "C75_gohmm_unvisited_round",
    "C75_gohmm_learning_stochastic",
    "C75_gohmm_unvisited_sigma_refuted",
    "C75_gohmm_sigma_collapse_refuted"
   ],
   "note": "Rows and the initial distribution stay stochastic. The standard deviation of an unvisited state is replaced by its square root, and constant data drive a standard deviation to 0 in two rounds: both are proved as _refuted theorems."
  },
  {
   "property": "C76",
   "status": "partial",
   "theorems": [
    "C76_mc_reported_likelihood_partial",
    "C76_hmm_reported_likelihood_partial",
    "C76_mdp_reported_likelihood_partial",
    "C76_ctmc_timed_reported_likelihood_partial",
    "C76_reported_likelihood_refuted"
   ],
   "note": "The reported value is the likelihood before the last update: it lies between the likelihood of the first hypothesis and that of the returned model (proved for MCs, HMMs, MDPs and timed CTMCs), refuted as an equality; max_it=0 raises UnboundLocalError."
  },
  {
   "property": "C77",
   "status": "partial",
   "theorems": [
    "C77_enough_cpus_partial",
    "C77_single_cpu_refuted",
    "C77_fit_any_cpus"
   ],
   "note": "Holds with at least two CPUs; refuted with one. fit itself works on any number of CPUs."
  },
  {
   "property": "C78",
   "status": "partial",
   "theorems": [
    "C78_exit_rates_refuted"
   ],
   "note": "refuted: exit rates are inverses of the drawn integers"
  },
  {
   "property": "C79",
   "status": "partial",
   "theorems": [
    "C79_deterministic_partial",
    "C79_initial_state_refuted",
    "C79_many_labels_refuted"
   ],
   "note": "proved for all states but the initial one when labels fit; refuted from the initial state and when there are more labels than states"
  },
  {
   "property": "C80",
   "status": "proved",
   "theorems": [
    "C80_quotient"
   ],
   "note": "transition frequencies, determinism, reachability"
  },
  {
   "property": "C81",
   "status": "partial",
   "theorems": [
    "C81_prism_output_refuted"
   ],
   "note": "refuted: always AttributeError when output_file_prism is given"
  },
  {
   "property": "C82",
   "status": "partial",
   "theorems": [
    "C82_training_set_kept",
    "C82_duplicates_refuted"
   ],
   "note": "proved for sets without duplicate sequences; refuted with duplicates"
  },
  {
   "property": "C83",
   "status": "partial",
   "theorems": [
    "C83_init_reserved",
    "C83_late_init_refuted"
   ],
   "note": "proved when traces start with different symbols; refuted for 'init' at later positions"
  },
  {
   "property": "C84",
   "status": "partial",
   "theorems": [
    "C84_merge_test",
    "C84_alphabet_refuted"
   ],
   "note": "the test is exactly the Hoeffding test over the words on the alphabet of the tree; refuted for all words: this alphabet is incomplete"
  },
  {
   "property": "C85",
   "status": "partial",
   "theorems": [
    "C85_MC_rejects",
    "C85_MDP_rejects",
    "C85_headers",
    "C85_ignored_refuted",
    "C85_CTMC_refuted"
   ],
   "note": "proved for loadMC and loadMDP; refuted for loadCTMC, loadHMM, loadGoHMM"
  },
  {
   "property": "C86",
   "status": "proved",
   "theorems": [
    "C86_PCTMC_constructor"
   ],
   "note": "acceptance, contents, initial distribution and parameter values; only ValueError is raised"
  },
  {
   "property": "C87",
   "status": "partial",
   "theorems": [
    "C87_evaluate_given_values",
    "C87_exists",
    "C87_isInstantiated",
    "C87_accessors",
    "C87_tau_refuted",
    "C87_undetermined",
    "C87_no_such_state",
    "C87_tau_no_target",
    "C87_timed_logLikelihood",
    "C87_timed_empty_trace"
   ],
   "note": "existence and uniqueness of the CTMC, accessors, timed likelihood; refuted: tau of an absorbing state is inf (C87_tau_refuted); impossible timed traces raise ValueError (second part of C87_timed_logLikelihood); an empty set of timed traces raises ZeroDivisionError"
  },
  {
   "property": "C88",
   "status": "partial",
   "theorems": [
    "C88_pctmc_run_untimed_partial",
    "C88_pctmc_next_partial",
    "C88_pctmc_next_refuted",
    "C88_pctmc_next_negative",
    "C88_pctmc_run_partial"
   ],
   "note": "proved when the rates are not negative and some rate leaves the state; refuted: from an absorbing state next goes to state 0"
  },
  {
   "property": "C89",
   "status": "partial",
   "theorems": [
    "C89_createPCTMC_partial",
    "C89_createPCTMC_refused",
    "C89_second_call_refuted",
    "C89_ids_refuted"
   ],
   "note": "proved for ids 0..n-1 and fewer than 65535 transitions; refuted: other ids collide with the init state, the caller's lists are extended"
  },
  {
   "property": "C90",
   "status": "partial",
   "theorems": [
    "C90_parameterIndexes_partial",
    "C90_refuted"
   ],
   "note": "proved when each transition is given once; refuted: an overwritten transition stays listed"
  },
  {
   "property": "C91",
   "status": "partial",
   "theorems": [
    "C91_randomInstantiation_partial",
    "C91_default_range_refuted"
   ],
   "note": "values within the given bounds, the others unchanged; refuted: the default range is not the documented one"
  },
  {
   "property": "C92",
   "status": "partial",
   "theorems": [
    "C92_pctmc_composition_partial",
    "C92_second_values_refuted",
    "C92_self_loop_refuted",
    "C92_sync_on_parameter_refuted",
    "C92_larger_second_refuted",
    "C92_third_model_refuted",
    "C92_sync_on_parameter",
    "C92_pctmc_few"
   ],
   "note": "exact product for models whose init state is last, n2 <= n1+1, no self loop of the first model facing a state without one, no synchronous transition on top of a transition with a parameter, fewer than 65536 expressions; refuted: the values of the second model are dropped, self loops lost, larger second model, third model, ValueError for a synchronous transition on top of a parametric one (C92_sync_on_parameter_refuted; C92_sync_on_parameter: this guard is exactly when the composition succeeds)"
  },
  {
   "property": "C93",
   "status": "proved",
   "theorems": [
    "C93_valid_mdp",
    "C93_ioalergia_empty"
   ],
   "note": "For sets of alternating traces with at least one action."
  },
  {
   "property": "C94",
   "status": "proved",
   "theorems": [
    "C94_model"
   ],
   "note": "Each weight is that of one representative prefix (see C59)."
  },
  {
   "property": "C95",
   "status": "partial",
   "theorems": [
    "C95_training_traces_possible_partial",
    "C95_refuted",
    "C95_initial_refuted"
   ],
   "note": "Proved when every action is tried wherever a trace goes on and all traces start alike; both conditions are needed (refutations)."
  },
  {
   "property": "C96",
   "status": "partial",
   "theorems": [
    "C96_initial_state",
    "C96_refuted"
   ],
   "note": "Proved for traces without the label 'init'; for traces starting with 'init' there are always two initial states (C96_refuted)."
  },
  {
   "property": "C97",
   "status": "partial",
   "theorems": [
    "C97_prism_output_refuted"
   ],
   "note": "Refuted for every training set: only the negation is proved."
  },
  {
   "property": "C98",
   "status": "partial",
   "theorems": [
    "C98_merge_test",
    "C98_refuted"
   ],
   "note": "The test is characterised exactly on the prefix tree; it ignores observations seen from one state only (refutation)."
  },
  {
   "property": "C99",
   "status": "proved",
   "theorems": [
    "C99_prefix_tree"
   ],
   "note": "exact content of the tree for all sets"
  },
  {
   "property": "C100",
   "status": "proved",
   "theorems": [
    "C100_belief",
    "C100_one_use_per_step"
   ],
   "note": "belief as a sum over paths, counts as expected uses, for all histories"
  },
  {
   "property": "C101",
   "status": "partial",
   "theorems": [
    "C101_strategy",
    "C101_total",
    "C101_one_process_refuted",
    "C101_no_action_taken"
   ],
   "note": "Proved with several processes; with one process it always raises ValueError (refutation)."
  },
  {
   "property": "C102",
   "status": "proved",
   "theorems": [
    "C102_sample"
   ],
   "note": "for all hypotheses, strategies and draws; completed samples"
  },
  {
   "property": "C103",
   "status": "partial",
   "theorems": [
    "C103_proposals",
    "C103_livelock_refuted",
    "C103_progress",
    "C103_sampling_never_ends_refuted",
    "C103_without_strategy"
   ],
   "note": "Exact set of the actions that can be proposed; progress when one is available; refutation: otherwise the loop never ends."
  },
  {
   "property": "C104",
   "status": "partial",
   "theorems": [
    "C104_training_set"
   ],
   "note": "The final multiset is characterised exactly; the object of the caller is the one extended, so \"not changed\" is false as soon as a run is sampled."
  },
  {
   "property": "C105",
   "status": "partial",
   "theorems": [
    "C105_no_exception",
    "C105_fit_refuted",
    "C105_no_iteration",
    "C105_list_training"
   ],
   "note": "Proved for learning rate 0 and several processes; refuted for the default arguments without stormpy, for lists and for one process."
  },
  {
   "property": "C106",
   "status": "proved",
   "theorems": [
    "C106_active_learning",
    "C106_iteration_improves"
   ],
   "note": "any rate for validity, rate 0 for the likelihood, all numbers of iterations"
  },
  {
   "property": "C107",
   "status": "proved",
   "theorems": [
    "C107_pctmc_timed_round",
    "C107_pctmc_untimed_round",
    "C107_reestimated_unique",
    "C107_coefficient"
   ],
   "note": "timed traces; untimed traces when every state can be left with a rate that is not estimated; the numerical root finder is an assumption (solver)"
  },
  {
   "property": "C108",
   "status": "proved",
   "theorems": [
    "C108_pctmc_timed_likelihood",
    "C108_pctmc_untimed_likelihood"
   ],
   "note": "for every round of every history, both kinds of traces; rates that are products (see C114 for sums)"
  },
  {
   "property": "C109",
   "status": "proved",
   "theorems": [
    "C109_fit_parameters_timed",
    "C109_fit_parameters_untimed"
   ],
   "note": "about the model after its reduction to the states with observed labels"
  },
  {
   "property": "C110",
   "status": "proved",
   "theorems": [
    "C110_fit_parameters_timed_stops",
    "C110_fit_parameters_untimed_stops",
    "C110_fit_parameters_timed_returns",
    "C110_fit_parameters_untimed_returns"
   ],
   "note": "explicit bound on the number of rounds; success when no equation has to be solved numerically"
  },
  {
   "property": "C111",
   "status": "partial",
   "theorems": [
    "C111_fit_parameters_new_object_refuted",
    "C111_fit_parameters_new_object",
    "C111_model_changed_refuted",
    "C111_without_processes"
   ],
   "note": "Refuted: on a new object every call raises (with valid arguments AttributeError, exact theorem), after removing states of the caller's model."
  },
  {
   "property": "C112",
   "status": "partial",
   "theorems": [
    "C112_fit_unused_refuted",
    "C112_equal_rates",
    "C112_fit_equal_rates_refuted",
    "C112_constants_two_labels_partial",
    "C112_constants_shared_refuted",
    "C112_constants_return_refuted",
    "C112_constants_likelihood_partial",
    "C112_constants_keep_expressions",
    "C112_constants_fixed_parameters_partial",
    "C112_fit_untimed_exception",
    "C112_fit_default_refuted",
    "C112_fit_untimed_refuted",
    "C112_fit_timed_refuted",
    "C112_matrix_density",
    "C112_first_use",
    "C112_short_trace"
   ],
   "note": "Refuted for the default arguments, for untimed traces and for timed traces with an estimated transition: never returns a model; the exception for untimed traces is TypeError (C112_fit_untimed_exception). With update_constant (the default) fit also never returns when a stored number is not used by any transition (C112_fit_unused_refuted), which createPCTMC produces as soon as two transitions have equal numeric rates, or one has the rate 1 given to the added initial transition (C112_equal_rates, C112_fit_equal_rates_refuted). What a round does to numbers on timed traces of two observations, the remaining case: exact for a number used by one transition of a state that traces do not return to with the same label (C112_constants_two_labels_partial), and the likelihood does not fall if all rates are such numbers (C112_constants_likelihood_partial), or have parameters that are all fixed (C112_constants_fixed_parameters_partial; missing: numbers and parameters estimated together); rates with a parameter are kept for all traces (C112_constants_keep_expressions); a number used twice is estimated from its first use and the likelihood may fall (C112_constants_shared_refuted). The formula is false without the no-return hypothesis, for instance with a self-loop on the source (C112_constants_return_refuted)."
  },
  {
   "property": "C113",
   "status": "partial",
   "theorems": [
    "C113_instantiated_parameter_refuted"
   ],
   "note": "Refuted: all parameters are estimated again, a parameter given by the caller changes."
  },
  {
   "property": "C114",
   "status": "partial",
   "theorems": [
    "C114_additive_constant_refuted"
   ],
   "note": "Refuted: the constant is ignored and a round can decrease the likelihood; products are covered by C108."
  },
  {
   "property": "C115",
   "status": "partial",
   "theorems": [
    "C115_one_positive_solution",
    "C115_largest_root",
    "C115_solver",
    "C115_degree_four_refuted"
   ],
   "note": "One positive solution for every degree; the kept root is this solution up to degree 3; refuted at degree 4, where a complex root is kept and the round raises."
  },
  {
   "property": "C116",
   "status": "partial",
   "theorems": [
    "C116_reduced_model",
    "C116_likelihood_timed",
    "C116_likelihood_untimed",
    "C116_fit_parameters_timed",
    "C116_fit_parameters_untimed",
    "C116_likelihood_refuted",
    "C116_unused_parameter_refuted"
   ],
   "note": "Reduced model characterised exactly; likelihood and the guarantee of fit_parameters carry over when no kept state can move to a removed state; refuted otherwise, and for parameters which are only used by removed states."
  },
  {
   "property": "C117",
   "status": "partial",
   "theorems": [
    "C117_reused_object",
    "C117_reused_object_refuted",
    "C117_after_parametric",
    "C117_fit_parameters",
    "C117_fit_parameters_refuted",
    "C117_after_mdp"
   ],
   "note": "Exact condition on the history: equal to a new object when it holds, never a result otherwise (refutation for all inputs)."
  },
  {
   "property": "C118",
   "status": "partial",
   "theorems": [
    "C118_single_observation_refuted",
    "C118_two_observations"
   ],
   "note": "Refuted: one such trace and no CTMC is learned; with two observations or more the rounds are those of the other theorems."
  },
  {
   "property": "C119",
   "status": "partial",
   "theorems": [
    "C119_save_load",
    "C119_identity",
    "C119_unreadable",
    "C119_other_file",
    "C119_synchronous_refuted"
   ],
   "note": "Round trip for every constructed model, with the rates as sympify reads their texts back; refuted for synchronous transitions, which are not written."
  },
  {
   "property": "C120",
   "status": "partial",
   "theorems": [
    "C120_prism",
    "C120_savePrism",
    "C120_range_refuted",
    "C120_several_initial_refuted"
   ],
   "note": "The file is read back with exactly the constants, transitions, labels and initial state; refuted for the range of the variable (one state too many) and for several initial states (IndexError)."
  },
  {
   "property": "C121",
   "status": "partial",
   "theorems": [
    "C121_MC",
    "C121_CTMC",
    "C121_two_initial_refuted",
    "C121_text",
    "C121_text_refuted"
   ],
   "note": "Success conditions, labels, transitions and initial distribution for every sparse DTMC and CTMC; refuted for several initial states with other labels (ValueError) and for telling labels apart (a_b against a and b), proved when no label contains an underscore."
  },
  {
   "property": "C122",
   "status": "proved",
   "theorems": [
    "C122_traces"
   ],
   "note": "For every sparse Markov chain with one initial state carrying another label, traces of every length."
  },
  {
   "property": "C123",
   "status": "proved",
   "theorems": [
    "C123_MC",
    "C123_CTMC"
   ],
   "note": "For every constructed model; a state labelled deadlock comes back as empty, the name becomes unknown_MC or unknown_CTMC (part of the statement). CTMC: no exit rate is 0 (numpy would divide by 0)."
  },
  {
   "property": "C124",
   "status": "partial",
   "theorems": [
    "C124_import",
    "C124_import_refuted",
    "C124_export",
    "C124_export_refuted"
   ],
   "note": "Import: exact characterisation of when a rate is kept; export: jump probabilities next to exit rates. Both refuted in the convention of stormpy (entries are rates)."
  },
  {
   "property": "C125",
   "status": "partial",
   "theorems": [
    "C125_MDP",
    "C125_default_names",
    "C125_actions",
    "C125_actions_refuted",
    "C125_same_name_refuted"
   ],
   "note": "Transitions, number and names for every order of the set; names match the actions when the set is listed by ids; refuted for another order and for equal names."
  },
  {
   "property": "C126",
   "status": "partial",
   "theorems": [
    "C126_MDP",
    "C126_choices",
    "C126_MDP_refuted"
   ],
   "note": "Round trip up to the order of the names, exact labels of the choices; refuted when the set is listed in another order, and only the choices of state 0 are named."
  },
  {
   "property": "C127",
   "status": "proved",
   "theorems": [
    "C127_PCTMCtoStormpy",
    "C127_PCTMCtoCTMC"
   ],
   "note": "For every well-formed model whose used parameters are listed. C127_PCTMCtoStormpy composes it with the export C124."
  },
  {
   "property": "C128",
   "status": "proved",
   "theorems": [
    "C128_PCTMC"
   ],
   "note": "For every sparse parametric CTMC with fewer than 65535 transitions (indexes are uint16), for every gather_variables that lists the variables which occur once."
  },
  {
   "property": "C129",
   "status": "partial",
   "theorems": [
    "C129_MC",
    "C129_CTMC_self_loops",
    "C129_CTMC_default_partial",
    "C129_CTMC_repeated_label_refuted",
    "C129_MDP"
   ],
   "note": "Proved for Markov chains, MDPs and CTMCs with self loops (support is exactly characterised, random_initial_state included). CTMCs without self loops, the default of fit: proved for traces without repeated label, refuted for traces that repeat a label when there is one state per label."
  },
  {
   "property": "C130",
   "status": "partial",
   "theorems": [
    "C130_MC",
    "C130_MC_unusable_refuted"
   ],
   "note": "Proved for random_initial_state=True and nb_states not less than the number of labels. Refuted with fewer states, and with random_initial_state=False when two sequences start with different labels: one process raises, several processes return a chain in which a training sequence is impossible."
  },
  {
   "property": "C131",
   "status": "partial",
   "theorems": [
    "C131_CTMC",
    "C131_CTMC_default_refuted",
    "C131_CTMC_without_init_refuted",
    "C131_CTMC_bounds_missing"
   ],
   "note": "Proved for self_loop=True and traces that start with init. Refuted for the default self_loop when a trace repeats a label, and for traces without init. Without the bounds fit raises RuntimeError (proved)."
  },
  {
   "property": "C132",
   "status": "partial",
   "theorems": [
    "C132_MDP",
    "C132_MDP_unusable_refuted"
   ],
   "note": "Proved for random_initial_state=True, traces that start with init and nb_states not less than the number of labels. Refuted otherwise as C130."
  },
  {
   "property": "C133",
   "status": "partial",
   "theorems": [
    "C133_MC",
    "C133_CTMC_timed",
    "C133_MDP",
    "C133_HMM",
    "C133_GoHMM_round_partial",
    "C133_GoHMM",
    "C133_CTMC_untimed"
   ],
   "note": "Proved for MCs, HMMs, MDPs and CTMCs (timed sets; untimed sets without absorbing states or fixed rates). For GoHMMs proved for one round in general, and for a whole fit when the initial model has no zero and each component of the observations takes two values (otherwise a standard deviation can become 0)."
  },
  {
   "property": "C134",
   "status": "partial",
   "theorems": [
    "C134_MC",
    "C134_HMM",
    "C134_MDP",
    "C134_CTMC_timed",
    "C134_CTMC_untimed",
    "C134_CTMC_timed_run",
    "C134_GoHMM_round",
    "C134_GoHMM"
   ],
   "note": "Proved for MCs, HMMs, MDPs, CTMCs (timed sets; untimed sets without absorbing states or fixed rates) including simulation (for CTMCs when some sample of each race is below 1024, C25). For GoHMMs: one round when the deviations stay positive, a whole fit of complete models on varied observations."
  },
  {
   "property": "C135",
   "status": "partial",
   "theorems": [
    "C135_GoHMM",
    "C135_list",
    "C135_unknown_kind_refuted",
    "C135_empty_list_refuted",
    "C135_refused"
   ],
   "note": "Proved for random_initial_state=True (the default), dimension at least 1, nb_distributions absent or equal to the dimension, every component taking two values in the set (otherwise a deviation becomes 0, see C75). Refuted for sets of unknown kind: AttributeError."
  },
  {
   "property": "C136",
   "status": "partial",
   "theorems": [
    "C136_coin_logLikelihood",
    "C136_coin_logLikelihood_double_refuted",
    "C136_coin_fit",
    "C136_coin_fit_double_refuted",
    "C136_coin_fit_ignored_double_refuted",
    "C136_mc_fit_double_refuted",
    "C136_die_run",
    "C136_die_run_double_refuted"
   ],
   "note": "Proved in exact arithmetic; refuted in double precision (Coq's primitive binary64 floats): from 1075 tosses on logLikelihood is 0, fit raises TypeError (one process) or ignores the trace (several); a row of seven 1/7 makes run raise IndexError for the largest draw."
  },
  {
   "property": "C137",
   "status": "proved",
   "theorems": [
    "C137_mc_zero_stays_zero_double",
    "C137_hmm_zero_stays_zero_double",
    "C137_mdp_zero_stays_zero_double",
    "C137_ctmc_zero_stays_zero_double",
    "C137_gohmm_zero_stays_zero_double",
    "C137_processes_any_arithmetic",
    "C137_mc_run_double",
    "C137_hmm_run_double",
    "C137_mdp_run_double",
    "C30_prefix_sharing",
    "C30_prefix_sharing_mdp"
   ],
   "note": "Double precision (primitive binary64 floats) for zeros and simulation, any arithmetic for the number of processes and prefix sharing. numpy's longdouble (timed CTMCs, GoHMMs) is taken to be double. One process is the hypothesis: with several, a trace whose worker fails is dropped (C44, C136). Alphabets and actions without repetition, as after construction (C16)."
  },
  {
   "property": "C138",
   "status": "partial",
   "theorems": [
    "C138_mc_print",
    "C138_mdp_print",
    "C138_ctmc_print",
    "C138_hmm_print",
    "C138_gohmm_print",
    "C138_mc_same_text",
    "C138_small_refuted",
    "C138_label_refuted"
   ],
   "note": "Proved for names and labels on one line (actions without ')', observations without ':'). Refuted: a transition of 1/20000 is not shown, so two accepted chains with different transitions print the same text; a label with an end of line shows a transition that does not exist. str and round of numbers are abstract."
  },
  {
   "property": "C139",
   "status": "proved",
   "theorems": [
    "C139_mc_run_law",
    "C139_mc_run_all",
    "C139_hmm_run_law",
    "C139_hmm_run_all",
    "C139_mdp_run_law"
   ],
   "note": "Volumes of boxes of draws; the draws of random() are given as a sequence. MDPs: uniform scheduler, every action available in every state; other schedulers and unavailable actions are C155. CTMCs and GoHMMs draw from continuous distributions: C151 and C154."
  },
  {
   "property": "C140",
   "status": "partial",
   "theorems": [
    "C140_hmm_alphabet",
    "C140_hmm_alphabet_ids",
    "C140_mdp_actions",
    "C140_mdp_negative_refuted",
    "C140_pctmc_alphabet"
   ],
   "note": "Proved for ids of states, the default and, for HMMs, invalid ids. Refuted: MDP.getActions accepts negative ids and counts from the end. Parametric CTMCs: getAlphabet lists every label once."
  },
  {
   "property": "C141",
   "status": "proved",
   "theorems": [
    "C141_pctmc_print"
   ],
   "note": "Spec: the reader of SPrint.v. Numbers, expressions and the text of an evaluated sympy number are abstract texts without end of line."
  },
  {
   "property": "C142",
   "status": "partial",
   "theorems": [
    "C142_addSet_values",
    "C142_sort_values",
    "C142_to_list",
    "C142_save_load",
    "C142_integral_partial",
    "C142_empty_refuted"
   ],
   "note": "Integers are kept when the first set is not empty; refuted for a set grown from an empty one (numpy appends to an empty list as floats): to_list raises TypeError and the saved file cannot be loaded."
  },
  {
   "property": "C143",
   "status": "proved",
   "theorems": [
    "C143_lkl_density",
    "C143_lkl_is_minimum",
    "C143_lkl_absorbing"
   ],
   "note": "Riemann integrals of the standard library; states with a positive exit rate; C143_lkl_absorbing for the others."
  },
  {
   "property": "C144",
   "status": "partial",
   "theorems": [
    "C144_mc_round",
    "C144_mc_fit",
    "C144_mc_likelihood",
    "C144_hmm_round",
    "C144_hmm_fit",
    "C144_hmm_likelihood",
    "C144_mdp_round",
    "C144_mdp_fit",
    "C144_mdp_likelihood",
    "C144_ctmc_timed_round",
    "C144_ctmc_timed_fit",
    "C144_ctmc_timed_likelihood",
    "C144_ctmc_untimed_round",
    "C144_ctmc_untimed_fit",
    "C144_ctmc_untimed_likelihood",
    "C144_gohmm_round",
    "C144_gohmm_fit",
    "C144_gohmm_likelihood",
    "C144_gohmm_unit_refuted"
   ],
   "note": "Proved for one round, for the whole loop and for the likelihood of MCs, HMMs, MDPs, CTMCs (timed traces in any unit of time, untimed ones) and GoHMMs. The threshold output_epsilon is compared with a difference of total log-likelihoods, so it is multiplied by the same number as the counts. For GoHMMs the unit of a component may change when every state is visited (complete models); refuted for a state without expected visits, whose deviation is replaced by its square root. Untimed CTMC learning sets the exit rates of visited states to 1, so only the chain itself (not its unit of time) corresponds."
  },
  {
   "property": "C145",
   "status": "partial",
   "theorems": [
    "C145_mc_gain",
    "C145_mc_strict",
    "C145_mc_stops",
    "C145_mc_total",
    "C145_hmm_gain",
    "C145_hmm_strict",
    "C145_hmm_stops",
    "C145_hmm_total",
    "C145_mdp_gain",
    "C145_mdp_strict",
    "C145_mdp_stops",
    "C145_mdp_total",
    "C145_ctmc_timed_gain",
    "C145_ctmc_timed_strict",
    "C145_ctmc_timed_strict_refuted",
    "C145_ctmc_timed_stops",
    "C145_ctmc_timed_total",
    "C145_ctmc_untimed_gain",
    "C145_gohmm_gain",
    "C145_gohmm_strict",
    "C145_gohmm_stops",
    "C145_gohmm_total",
    "C145_pctmc_timed_strict",
    "C145_pctmc_untimed_strict"
   ],
   "note": "Gain, strict improvement, stopping and summed moves for MC, HMM, MDP, CTMC (timed; untimed through the jump chain) and GoHMM. Strict improvement needs, for CTMCs, that fixed rates belong to states the traces spend time in (others are doubled at every round without any gain: C145_ctmc_timed_strict_refuted) and, for GoHMMs, that every state is visited and deviations stay positive. Runs of GoHMM learning under the conditions of C75. For parametric CTMCs: strictness for the parameters with a positive exposure on timed traces (C145_pctmc_timed_strict), and for the parameters of states with a positive expected number of visits on untimed traces (C145_pctmc_untimed_strict)."
  },
  {
   "property": "C146",
   "status": "partial",
   "theorems": [
    "C146_mc_stationary",
    "C146_mc_ascent",
    "C146_mc_fixed_iff_stationary",
    "C146_hmm_stationary",
    "C146_hmm_ascent",
    "C146_hmm_fixed_iff_stationary",
    "C146_mdp_stationary",
    "C146_mdp_ascent",
    "C146_mdp_fixed_iff_stationary",
    "C146_ctmc_timed_stationary",
    "C146_ctmc_timed_ascent",
    "C146_ctmc_timed_fixed_iff_stationary",
    "C146_ctmc_untimed_fixed_iff_stationary",
    "C146_ctmc_timed_stationary_refuted",
    "C146_gohmm_stationary",
    "C146_gohmm_ascent",
    "C146_gohmm_fixed_iff_stationary",
    "C146_pctmc_slope",
    "C146_pctmc_direction",
    "C146_pctmc_stationary",
    "C146_pctmc_untimed_slope",
    "C146_pctmc_untimed_direction",
    "C146_pctmc_untimed_stationary"
   ],
   "note": "Stationary iff unchanged, and strict ascent otherwise, for MC, HMM, MDP, CTMC (timed; untimed through the jump chain) and GoHMM. Timed CTMCs need positive dwell times: with a dwell time of zero a round returns a model unchanged although the likelihood rises (C146_ctmc_timed_stationary_refuted); fixed rates must belong to states the traces spend time in (C45). Parametric CTMCs (timed): the derivative in one parameter (C146_pctmc_slope), a round moves each exposed parameter in the direction of its sign (C146_pctmc_direction), and it is 0 for a parameter that is left unchanged (C146_pctmc_stationary). The same on untimed traces for the parameters the traces use (C146_pctmc_untimed_slope, C146_pctmc_untimed_direction), and 0 for those left unchanged (C146_pctmc_untimed_stationary). GoHMMs need every state to be visited (C75)."
  },
  {
   "property": "C147",
   "status": "partial",
   "theorems": [
    "C147_mc_run_from",
    "C147_mc_run_path",
    "C147_mc_run_out",
    "C147_hmm_run_from",
    "C147_hmm_run_path",
    "C147_hmm_run_out",
    "C147_gohmm_run_from",
    "C147_gohmm_run_out",
    "C147_mdp_run_from",
    "C147_mdp_run_out",
    "C147_mdp_default",
    "C147_mc_generate_timed_refuted",
    "C147_hmm_generate_timed_refuted",
    "C147_mc_generate_no_step"
   ],
   "note": "run from a chosen state is run of the model started there, for MC, HMM, GoHMM and MDP (any scheduler); ids out of range raise. The last sentence fails for timed=True on untimed models (C147_*_generate_timed_refuted)."
  },
  {
   "property": "C148",
   "status": "partial",
   "theorems": [
    "C148_mc_endless",
    "C148_mc_limit",
    "C148_mc_converges",
    "C148_hmm_endless",
    "C148_hmm_limit",
    "C148_hmm_converges",
    "C148_mdp_endless",
    "C148_mdp_limit",
    "C148_mdp_converges",
    "C148_ctmc_timed_endless",
    "C148_ctmc_timed_limit",
    "C148_ctmc_timed_converges",
    "C148_ctmc_untimed_converges",
    "C148_gohmm_endless",
    "C148_gohmm_limit",
    "C148_ctmc_timed_converges_refuted"
   ],
   "note": "Existence of endless runs, limits unchanged by a round and stationary, convergence of the log-likelihoods, for MC, HMM, MDP, CTMC (timed; untimed through the jump chain) and GoHMM (limits with positive deviations and all states visited); existence of a limit for MC, HMM, MDP and CTMC without fixed rates. With a fixed rate in a state never visited there is no limit (C148_ctmc_timed_converges_refuted). Existence of a limit is not claimed for GoHMM: its likelihood is not bounded and deviations may approach 0."
  },
  {
   "property": "C149",
   "status": "partial",
   "theorems": [
    "C149_mc_round",
    "C149_mc_rate",
    "C149_mc_converges",
    "C149_mc_optimal",
    "C149_mdp_round",
    "C149_mdp_optimal",
    "C149_ctmc_timed_round",
    "C149_ctmc_timed_optimal",
    "C149_mdp_fit",
    "C149_ctmc_timed_fit",
    "C149_ctmc_untimed_rate",
    "C149_ctmc_untimed_converges",
    "C149_ctmc_untimed_optimal",
    "C149_mdp_unique",
    "C149_ctmc_timed_unique",
    "C149_mc_unique",
    "C149_ctmc_untimed_unique",
    "C149_mc_one_round_refuted"
   ],
   "note": "MDPs and timed CTMCs: exact frequencies after one round, for every trace set possible under the initial model; MC: formula of a round, geometric convergence, optimality of the frequencies among all chains with the same states. C149_mc_one_round_refuted: for MCs one round does not give the frequencies, because a trace is read as if an unobserved move followed its last label. CTMC optimality needs positive times (with a zero time the likelihood has no maximum). C149_mdp_fit, C149_ctmc_timed_fit: the whole fit stops within three iterations for every positive threshold and returns these frequencies. C149_ctmc_untimed_rate, _converges, _optimal: CTMCs from traces without times, for the jump probabilities. C149_mc_unique, _mdp_unique, _ctmc_timed_unique, _ctmc_untimed_unique: any other model scores strictly lower."
  },
  {
   "property": "C150",
   "status": "partial",
   "theorems": [
    "C150_score_bound",
    "C150_generator_best",
    "C150_expected_score",
    "C150_mdp_expected_score",
    "C150_impossible_traces_refuted"
   ],
   "note": "All pairs of MCs, HMMs and untimed CTMCs of any sizes, and MDPs for each action sequence: bound by minus the entropy with the case of equality, generator best on sets with exact shares and in expectation. C150_impossible_traces_refuted: without the hypothesis that the other model can emit the traces the claim fails, because impossible traces are ignored. Densities (timed CTMC, GoHMM) are not covered."
  },
  {
   "property": "C151",
   "status": "partial",
   "theorems": [
    "C151_ctmc_next_race",
    "C151_sample_law",
    "C151_ctmc_step_law",
    "C151_ctmc_run_race",
    "C151_ctmc_density_of_run",
    "C151_ctmc_zero_rate",
    "C151_all_late",
    "C151_ctmc_long_times_refuted"
   ],
   "note": "Exact characterisation of next and run by races between the samples, densities and integrals, and the density of logLikelihood as the density of the run, for times below 1024. C151_ctmc_long_times_refuted: in a state with a rate of 0 the simulation never returns a time over 1024 and takes a transition of rate 0 instead. That the density of independent exponential samples is the product of the densities is the specification (SRace.v), not derived from a measure space."
  },
  {
   "property": "C152",
   "status": "partial",
   "theorems": [
    "C152_infinities_do_not_cancel",
    "C152_mc_fit_finite",
    "C152_mdp_fit_finite",
    "C152_ctmc_timed_fit_finite",
    "C152_hmm_fit_finite",
    "C152_gohmm_fit_finite",
    "C152_ctmc_untimed_fit_finite",
    "C152_ctmc_untimed_absorbing_refuted",
    "C152_mc_score_finite",
    "C152_hmm_score_finite",
    "C152_gohmm_score_finite",
    "C152_ctmc_score_finite",
    "C152_ctmc_timed_score_finite",
    "C152_mdp_score_finite",
    "C152_ctmc_absorbing_score_refuted",
    "C152_equality"
   ],
   "note": "The arithmetic of numpy without rounding (MExt.v): real numbers, +inf, -inf and nan. Learning: MC, MDP and timed CTMC without conditions, HMM and GoHMM with the expected shapes and signs, untimed CTMC when every state can be left. Scores of all classes. C152_ctmc_untimed_absorbing_refuted and C152_ctmc_absorbing_score_refuted: with a state that cannot be left, learning a CTMC from untimed traces turns every rate into nan and never converges, and every score is nan. Rounding (overflow, underflow) is outside, see C137."
  },
  {
   "property": "C153",
   "status": "partial",
   "theorems": [
    "C153_ctmc_platform_independent_partial",
    "C153_pctmc_untimed_refuted",
    "C153_pctmc_not_instantiated",
    "C153_pctmc_empty_set",
    "C153_pctmc_single_process",
    "C153_pctmc_single_process_refuted"
   ],
   "note": "CTMCs whose states can all be left: both versions, and parametric CTMCs with one process. C153_pctmc_untimed_refuted: with several processes every non-empty set raises AttributeError (PCTMC has no method b). C153_pctmc_single_process_refuted: with one process, a state that cannot be left makes every score 0. With an absorbing state the score of a CTMC is nan (C152). When every state has its exit rate is modelled; a parametric CTMC with a parameter missing from its list of parameters is modelled as TypeError."
  },
  {
   "property": "C154",
   "status": "proved",
   "theorems": [
    "C154_gohmm_run_law",
    "C154_gohmm_density_of_run",
    "C154_gohmm_run_all"
   ],
   "note": "numpy.random.normal(mu, sigma) is mu + sigma times a standard sample; that independent samples have the product of the densities is the specification (SGauss.v). Standard deviations are positive (numpy raises ValueError for negative ones, not modelled)."
  },
  {
   "property": "C155",
   "status": "proved",
   "theorems": [
    "C155_mdp_scheduler_law",
    "C155_uniform_described",
    "C155_finite_memory_described",
    "C155_mdp_all_available"
   ],
   "note": "Any scheduler described by distributions over actions for each of its states and a transition on observations; the two schedulers of the library that run accepts are instances. Memoryless schedulers make run raise TypeError (C24). The set of draws is a growing union of boxes (one stage for each bound on the refusals), with the limit of the volumes."
  },
  {
   "property": "C156",
   "status": "proved",
   "theorems": [
    "C156_mc_exact_frequencies",
    "C156_hmm_exact_frequencies",
    "C156_mdp_exact_frequencies"
   ],
   "note": "MC, HMM and MDP. For MDPs all actions are available in all states: otherwise the actions played tell which state was reached, and the frequencies given the actions are not those of the model. Exact real arithmetic. Continuous observations and dwell times (GoHMM, CTMC) have no finite set with exact frequencies."
  },
  {
   "property": "C157",
   "status": "proved",
   "theorems": [
    "C157_extensions",
    "C157_longer_trace_score",
    "C157_mdp_extensions",
    "C157_joined_score",
    "C157_mdp_joined_score",
    "C157_gohmm_joined_score"
   ],
   "note": "C157_extensions and C157_longer_trace_score for MCs, HMMs and CTMCs (untimed) with distributions as rows (non-zero exit rates for CTMCs); C157_mdp_extensions: the sum for actions that are available everywhere, the inequality whenever the rows sum to at most 1. Joined sets: the first set holds distinct sequences, both are non-empty with positive counts and no empty trace."
  },
  {
   "property": "C158",
   "status": "partial",
   "theorems": [
    "C158_order",
    "C158_parts_alone",
    "C52_larger_second_refuted"
   ],
   "note": "C158_order, C158_parts_alone under the conditions of C52_ctmc_composition_partial (label init last, sizes, no two self loops, at most 256 expressions). Without them the composition itself is wrong or fails: C52_larger_second_refuted shows that one of the two orders always raises when the sizes differ by 2 or more."
  },
  {
   "property": "C159",
   "status": "proved",
   "theorems": [
    "C159_trace_probability",
    "C159_best",
    "C159_unmerged"
   ],
   "note": "alphas in (0,2] and traces readable by Alergia (C83); the set is scored as the chain reads it, with init in front. The comparison needs the training traces to be possible under the other chain (logLikelihood skips impossible traces, C150_impossible_traces_refuted)."
  },
  {
   "property": "C160",
   "status": "proved",
   "theorems": [
    "C160_chance",
    "C160_independent",
    "C160_average",
    "C160_frequency",
    "C160_score",
    "C160_generator_wins"
   ],
   "note": "exact arithmetic; sizes given as one integer; random() as a sequence of independent uniform values, so a probability is a volume of boxes (C160_chance: determined by the event). The comparison needs y to emit what x emits (C150_impossible_traces_refuted)."
  },
  {
   "property": "C161",
   "status": "proved",
   "theorems": [
    "C161_learning_converges"
   ],
   "note": "exact arithmetic; fully observed chains (distinct labels), traces of one length; rounds without the early stop of fit (the stop is by likelihood gain, C145). Transitions of states that no trace can leave are not determined by the traces and are not claimed."
  },
  {
   "property": "C162",
   "status": "proved",
   "theorems": [
    "C162_mdp_learning_consistent"
   ],
   "note": "exact arithmetic; fully observed MDPs (distinct labels) in which every action is available everywhere, uniform scheduler, traces of one length. State-action pairs that no trace can try are not determined by the traces and are not claimed."
  },
  {
   "property": "C163",
   "status": "partial",
   "theorems": [
    "C163_line_ends",
    "C163_load_save_load",
    "C163_loaded_is_checked",
    "C163_negative_rate_refuted"
   ],
   "note": "proved as stated for all texts; the checks are those of the constructors, so a file with negative rates is loaded (refuted witness). Values of other kinds than lists of strings and numbers (which array() might accept) are errors in the model."
  },
  {
   "property": "C164",
   "status": "partial",
   "theorems": [
    "C164_MC_cut",
    "C164_CTMC_cut",
    "C164_MDP_cut",
    "C164_HMM_cut",
    "C164_GoHMM_cut",
    "C164_PCTMC_cut",
    "C164_Set_cut_partial",
    "C164_Set_cut_refuted"
   ],
   "note": "Proved for the six model classes. Refuted for sets: a cut set file is loaded as the beginning of the set, and without its last newline the last count loses its last digit (12 becomes 1); C164_Set_cut_partial says exactly what can be loaded."
  },
  {
   "property": "C165",
   "status": "partial",
   "theorems": [
    "C165_many_models",
    "C165_one_part_moves",
    "C165_exit_rates",
    "C92_larger_second_refuted",
    "C92_self_loop_refuted",
    "C92_third_model_refuted",
    "C92_second_values_refuted"
   ],
   "note": "Proved for any number of models without self loops, none with more than one state more than the first, and at most 254 combinations. Beyond these limits the code fails (C92_larger_second_refuted, C92_self_loop_refuted), a third model does not synchronise (C92_third_model_refuted) and only the values of the first model are kept (C92_second_values_refuted)."
  },
  {
   "property": "C166",
   "status": "partial",
   "theorems": [
    "C166_product_order",
    "C166_reachable_order",
    "C166_order",
    "C166_steps",
    "C92_larger_second_refuted",
    "C92_second_values_refuted"
   ],
   "note": "Proved under the limits of C165 (no self loops, sizes, at most 254 combinations). Beyond them the order matters: a larger second model fails (C92_larger_second_refuted) and the values kept are those of the first model (C92_second_values_refuted)."
  },
  {
   "property": "C167",
   "status": "partial",
   "theorems": [
    "C167_instantiate_composition",
    "C167_instantiate_accepted",
    "C52_wrap_refuted",
    "C52_two_self_loops_refuted",
    "C92_second_values_refuted",
    "C92_sync_on_parameter_refuted"
   ],
   "note": "Proved for a first model without self loops and under the size limits of the two functions (8-bit references for CTMCs: C52_wrap_refuted; two self loops: C52_two_self_loops_refuted). No synchronous transition on top of a parametric one (C92_sync_on_parameter_refuted). Values that only the second model has are lost by the composition (C92_second_values_refuted)."
  },
  {
   "property": "C168",
   "status": "proved",
   "theorems": [
    "C168_set_order"
   ],
   "note": "The other set of the function, the names of the parameters, is an argument of the model (see C166)."
  },
  {
   "property": "C169",
   "status": "proved",
   "theorems": [
    "C169_mc_nothing_explained",
    "C169_hmm_nothing_explained",
    "C169_ctmc_timed_nothing_explained",
    "C169_mdp_nothing_explained",
    "C169_empty_set",
    "C169_pctmc_empty_set",
    "C169_pctmc_timed_nothing_explained",
    "C169_ctmc_untimed_nothing_explained",
    "C169_pctmc_untimed_nothing_explained"
   ],
   "note": "For a GoHMM only the empty set (densities are positive). CTMCs and parametric CTMCs, timed and untimed."
  },
  {
   "property": "C170",
   "status": "proved",
   "theorems": [
    "C170_unique",
    "C170_round",
    "C170_closed_form",
    "C170_fit",
    "C170_optimal",
    "C170_fit_parameters"
   ],
   "note": "Real arithmetic. Timed traces, every trace with at least one move, and every learned parameter must have positive exposure (otherwise the code divides by zero or keeps the old value, C107/C112). C170_round also covers one iteration, C170_closed_form the formula, C170_optimal the comparison with all other positive values, C170_unique the uniqueness."
  }
 ]
}