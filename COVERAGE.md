# Which functions of jajapy are modelled

Generated by `tools/coverage.py` from the comments of the model: for each function of the library, the definitions whose comment cites some of its lines. A function without definition has a reason instead. Tests, examples and documentation are not listed.

## jajapy/base/BW.py

| function | lines | modelled by |
|---|---|---|
| `BW.__init__` | 16-23 | `MBWObj.call`, `MBWObj.new_object`, `MPLearn.fresh` |
| `BW.fit` | 26-171 | `MBWObj.fit_on`, `MInit.fit_random`, `MPLearn.fit_PCTMC`, `MPool.fit_processes` |
| `BW._preparation` | 174-276 | `MBWObj.call`, `MBWObj.bind_methods`, `MInit.job_of`, `MInit.fit_random`, `MPLearn.has_sym`, `MPLearn.fit_PCTMC`, ... |
| `BW._bw` | 278-325 | `MActive.bw_fit`, `MBW.round_MC`, `MBW.bw_loop`, `MBWObj.computeTaus`, `MBWObj.round_MC_on`, `MBWObj.fit_on`, ... |
| `BW._processWork_MC` | 329-343 | `MBW.stat_den`, `MBW.stat_num`, `MBW.processWork_MC`, `MBWObj.one_argument` |
| `BW._update_MC` | 345-360 | `MBW.new_row`, `MBW.update_MC` |
| `BW._h_tau_MDP` | 364-385 | not modelled: reader of the current hypothesis; same text as MDP.tau, modelled by mdp_tau |
| `BW._computeAlphas_MDP` | 387-414 | `MBW.bw_alphas`, `MBW.mask_last` |
| `BW._computeBetas_MDP` | 416-441 | `MBW.bw_betas` |
| `BW._processWork_MDP` | 443-464 | `MBW.processWork_MDP`, `MBWObj.round_MDP_on`, `MLik.pairs_of` |
| `BW._update_MDP` | 466-487 | `MActive.bw_fit`, `MBW.update_MDP` |
| `BW._h_e` | 491-506 | not modelled: reader of the current hypothesis; calls CTMC.e, modelled by ct_e |
| `BW._h_l` | 508-527 | not modelled: reader of the current hypothesis; same text as CTMC.l, modelled by ct_l |
| `BW._computeAlphas_timed_matrix` | 529-575 | `MPLearn.akind`, `MPLearn.m_tau`, `MPLearn.m_phi` |
| `BW._computeAlphas_timed` | 577-603 | `MBW.bw_alphas`, `MBW.mask_last`, `MPLearn.akind` |
| `BW._computeBetas_timed_matrix` | 605-650 | `MLik.ct_w`, `MPLearn.akind`, `MPLearn.m_phi` |
| `BW._computeBetas_timed` | 652-678 | `MBW.bw_betas`, `MPLearn.akind` |
| `BW._splitTime` | 680-703 | `MBWObj.round_CTMC_untimed_on`, `MInit.splitTime`, `MPLearn.ptrace` |
| `BW._processWork_CTMC` | 705-734 | `MBW.stat_den`, `MBW.processWork_CTMC_timed`, `MBW.processWork_CTMC_untimed`, `MBWObj.round_CTMC_untimed_on` |
| `BW._update_CTMC` | 736-753 | `MBW.update_CTMC` |
| `BW._processWork_HMM` | 757-779 | `MBW.stat_den`, `MBW.processWork_HMM`, `MBWObj.one_argument` |
| `BW._update_HMM` | 781-806 | `MBW.update_HMM` |
| `BW._processWork_GoHMM` | 809-829 | `MBW.processWork_GoHMM`, `MBWObj.round_GoHMM_on` |
| `BW._update_GoHMM` | 831-859 | `MBW.update_GoHMM` |
| `BW._sortParameters` | 863-895 | `MPLearn.sort_a`, `MPLearn.category`, `MPLearn.sortParameters` |
| `BW._computeTaus_PCTMC` | 897-901 | `MPLearn.hval`, `MPRoot.largest_root` |
| `BW._a_pi` | 903-935 | `MPLearn.a_pi` |
| `BW._c_pi` | 937-979 | `MPLearn.coef`, `MPLearn.c_pi` |
| `BW._C` | 981-1001 | `MPLearn.C_of` |
| `BW._h_e_PCTMC` | 1003-1018 | `MPLearn.hval` |
| `BW._h_l_PCTMC` | 1020-1041 | `MPLearn.hval` |
| `BW._h_tau_PCTMC` | 1043-1067 | `MPLearn.hval` |
| `BW._processWork_PCTMC` | 1069-1150 | `MPLearn.move_weights`, `MPLearn.work1`, `MPLearn.work2`, `MPLearn.add_at`, `MPLearn.first_use`, `MPLearn.processWork_PCTMC`, ... |
| `BW._update_PCTMC` | 1152-1197 | `MPLearn.new_value1`, `MPLearn.new_value2`, `MPLearn.new_cste`, `MPLearn.update_PCTMC`, `MPRoot.cgt` |
| `BW.fit_nonInstantiatedParameters` | 1199-1262 | `MPLearn.has_sym`, `MPLearn.fit_nonInstantiatedParameters` |
| `BW.fit_parameters` | 1264-1412 | `MBWObj.call`, `MBWObj.bind_methods`, `MPLearn.has_sym`, `MPLearn.dec`, `MPLearn.remove_state`, `MPLearn.first_unused`, ... |
| `BW._getInitialModel` | 1416-1432 | `MActive.bw_fit`, `MInit.fit_random` |
| `BW._getTrainingSet` | 1434-1462 | `MPLearn.training_of`, `MPrep.mdp_guess`, `MPrep.prepared` |
| `BW._createInitialModel` | 1464-1490 | `MInit.createInitialModel` |
| `BW._computeAlphas_matrix` | 1492-1531 | `MPLearn.akind` |
| `BW._computeAlphas` | 1533-1563 | `MBW.bw_alphas`, `MLik.fstep`, `MPLearn.akind` |
| `BW._computeBetas_matrix` | 1565-1604 | `MPLearn.akind` |
| `BW._computeBetas` | 1606-1636 | `MBW.bw_betas`, `MPLearn.akind` |
| `BW._computeTaus` | 1638-1639 | not modelled: empty |
| `BW._runProcesses` | 1641-1649 | `MBW.runProcesses`, `MBWObj.run_all`, `MPLearn.run_workers`, `MPool.pool`, `MPool.not_None`, `MPool.fit_pool` |
| `BW._endPrint` | 1651-1658 | `MBWObj.tau_method` |
| `BW._h_tau` | 1660-1679 | `MBWObj.tau_method` |

## jajapy/base/Base_HMM.py

| function | lines | modelled by |
|---|---|---|
| `Base_HMM.__init__` | 11-30 | `MCtor.base_hmm_init` |
| `Base_HMM.a` | 33-59 | `MCtor.mat_a`, `MModels.hmm_a`, `MModels.go_tau` |
| `Base_HMM.tau` | 61-80 | `MCtor.mat_a`, `MModels.hmm_a`, `MModels.go_tau` |
| `Base_HMM._stateToString` | 82-88 | `MPrint.base_hmm_state_str` |
| `Base_HMM._save` | 90-93 | `MText.hmm_save` |
| `Base_HMM.next_obs` | 95-105 | `MAlph.HMM_next_obs`, `MRun.hmm_next`, `MRunFrom.hmm_run_true` |
| `Base_HMM.next_state` | 107-123 | `MRun.hmm_next`, `MRunFrom.hmm_run_true` |
| `Base_HMM.next` | 125-140 | `MRun.hmm_next`, `MRunFrom.hmm_run_true` |

## jajapy/base/Base_MC.py

| function | lines | modelled by |
|---|---|---|
| `Base_MC.__init__` | 11-38 | `MCtor.base_mc_init`, `MModels.mc` |
| `Base_MC.updateLabelling` | 40-57 | `MCtor.updateLabelling` |
| `Base_MC.getLabel` | 59-79 | `MCtor.getLabel`, `MModels.lab` |
| `Base_MC.b` | 81-84 | `MCtor.getLabel`, `MModels.lab_b` |
| `Base_MC.getAlphabet` | 86-100 | not modelled: returns the attribute alphabet (see C140) |
| `Base_MC._savePrism` | 102-121 | `MPrism.add_label`, `MPrism.label_line`, `MPrism.base_prism` |
| `Base_MC._save` | 124-127 | `MText.base_mc_save` |
| `Base_MC.toStormpy` | 129-143 | not modelled: calls jajapyModeltoStormpy (MStorm.v); RuntimeError without stormpy |
| `labelsForRandomModel` | 145-165 | `MRandom.labelsForRandomModel` |

## jajapy/base/Model.py

| function | lines | modelled by |
|---|---|---|
| `Model.__init__` | 23-52 | `MCtor.model_init`, `MModels.mc` |
| `Model.rename` | 54-63 | not modelled: assigns the name |
| `Model.next` | 65-69 | not modelled: abstract |
| `Model._stateToString` | 71-75 | not modelled: abstract |
| `Model._save` | 78-85 | `MText.model_save` |
| `Model.tau` | 87-91 | not modelled: abstract |
| `Model.pi` | 93-107 | `MCtor.model_pi` |
| `Model.run` | 109-136 | `MRun.hmm_run_from`, `MRun.go_next`, `MRunFrom.mc_run_true`, `SChance.v` |
| `Model.generateSet` | 138-198 | `MRun.gen_size`, `MRun.gen_add`, `MRun.gen_loop`, `MRun.generateSet`, `MRunFrom.mc_run_true`, `SChance.v` |
| `Model.__str__` | 201-214 | `MPrint.model_str` |
| `Model.logLikelihood` | 216-238 | `MPScore.it`, `MPScore.ct_logLikelihood_1`, `MPool.logLikelihood_on` |
| `Model._updateAlphaMatrix` | 240-284 | `MLik.fstep`, `MLik.alpha_loop`, `MLik.updateAlphaMatrix` |
| `Model._initAlphaMatrix` | 286-303 | `MLik.fstep`, `MLik.initAlphaMatrix` |
| `Model._logLikelihood_oneproc` | 305-337 | `MLik.fstep`, `MLik.common_prefix`, `MLik.oneproc_loop`, `MLik.model_oneproc`, `MPScore.pc_tau_x` |
| `Model._logLikelihood_multiproc` | 339-349 | `MLik.fstep`, `MLik.model_multiproc`, `MPScore.pc_logLikelihood`, `MPool.pool`, `MPool.logLikelihood_on` |
| `Model._computeAlphas` | 351-381 | `MLik.fstep`, `MLik.model_prob`, `MLik.log_times`, `MLik.model_computeAlphas`, `MPScore.pc_taus`, `MPScore.pc_fstep`, ... |
| `Model._checkStateIndex` | 383-389 | `MCtor.checkStateIndex` |

## jajapy/base/Parametric_Model.py

| function | lines | modelled by |
|---|---|---|
| `Parametric_Model.__init__` | 15-83 | `MPAcc.pc_getAlphabet`, `MPctmc.pctmc`, `MPctmc.zmax` |
| `Parametric_Model.isInstantiated` | 85-124 | `MPctmc.inst_param` |
| `Parametric_Model.transitionValue` | 126-147 | `MPPrint.transitionValue` |
| `Parametric_Model.transitionExpression` | 149-165 | `MPctmc.transitionExpression` |
| `Parametric_Model.parameterValue` | 167-186 | `MPctmc.parameterValue` |
| `Parametric_Model.parameterIndexes` | 188-214 | `MPctmc.parameterValue` |
| `Parametric_Model.instantiate` | 216-244 | `MPctmc.new_values` |
| `Parametric_Model.evaluateTransition` | 251-284 | `MPctmc.eval`, `MPctmc.evaluateTransition` |
| `Parametric_Model.involvedParameters` | 286-313 | `MPctmc.involvedParameters` |
| `Parametric_Model.getLabel` | 315-335 | `MPAcc.pc_getLabel` |
| `Parametric_Model.getAlphabet` | 337-351 | `MPAcc.pc_getAlphabet` |
| `Parametric_Model.__str__` | 353-370 | `MPPrint.parametric_str` |
| `Parametric_Model.generateSet` | 372-432 | `MRun.generateSet` |
| `Parametric_Model._save` | 434-449 | `MPText.Sym`, `MPText.parametric_save` |
| `Parametric_Model._checkStateIndex` | 451-459 | `MPAcc.pc_checkStateIndex` |
| `loadParametricModel` | 461-474 | `MPText.Sym`, `MPText.sympify` |

## jajapy/base/Set.py

| function | lines | modelled by |
|---|---|---|
| `Set.__init__` | 7-48 | `MSet.tset`, `MSet.infer_type`, `MSet.newSet`, `MSetNum.counts`, `MSetNum.d_new`, `MText.load_pairs` |
| `Set.save` | 50-64 | `MSetNum.d_save`, `MText.type_text` |
| `Set.setFromList` | 66-83 | `MSet.setFromList_step` |
| `Set.to_list` | 85-100 | `MSet.to_list`, `MSetNum.d_to_list` |
| `Set.isEqual` | 102-131 | `MSet.isEqual_loop`, `MSet.isEqual` |
| `Set.getAlphabet` | 133-158 | `MSet.range2`, `MSet.getAlphabet` |
| `Set.getActionsObservations` | 161-179 | `MSet.range2`, `MSet.actions_observations` |
| `Set.addSet` | 181-203 | `MSet.addSet_step`, `MSet.addSet`, `MSetNum.d_addSet_step`, `MSetNum.d_addSet` |
| `Set.sort` | 205-211 | `MSet.pair_leb`, `MSetNum.counts`, `MSetNum.d_insert` |
| `loadSet` | 214-239 | `MSetNum.d_load`, `MText.load_pairs` |

## jajapy/base/tools.py

| function | lines | modelled by |
|---|---|---|
| `normpdf` | 7-29 | `MTools.randomProbabilities`; not called anywhere |
| `resolveRandom` | 32-64 | `MCtor.pyid`, `MTools.resolve_loop` |
| `normalize` | 66-83 | `MTools.normalize` |
| `randomProbabilities` | 85-118 | `MTools.randomProbabilities` |
| `checkProbabilities` | 120-135 | `MTools.checkProbabilities` |
| `hoeffdingBound` | 137-141 | `MTools.nabs` |

## jajapy/ctmc/CTMC.py

| function | lines | modelled by |
|---|---|---|
| `CTMC.__init__` | 19-52 | `MCtor.CTMC_new`, `MModels.ctmc` |
| `CTMC.e` | 54-67 | `MCtor.CTMC_e`, `MModels.ct_e` |
| `CTMC.l` | 70-93 | `MCtor.CTMC_e`, `MModels.ct_l` |
| `CTMC.lkl` | 95-113 | `MModels.ct_lkl` |
| `CTMC.tau` | 115-134 | `MCtor.CTMC_e`, `MModels.ct_tau` |
| `CTMC.expected_time` | 136-151 | `MCtor.CTMC_e`, `MModels.ct_tau` |
| `CTMC._stateToString` | 153-161 | `MPrint.ctmc_state_str` |
| `CTMC.next` | 163-181 | `MRun.ct_exps` |
| `CTMC.run` | 183-212 | `MRun.ct_run_from` |
| `CTMC._computeAlphas_timed` | 214-230 | `MLik.fstep`, `MLik.timed`, `MLik.ct_w`, `MLik.ct_prob_timed`, `MLik.ct_computeAlphas_timed` |
| `CTMC.logLikelihood` | 232-261 | `MLik.mc_logLikelihood`, `MLik.ct_logLikelihood_timed`, `MPScore.ct_logLikelihood_1`, `MPool.pool` |
| `CTMC.toMC` | 263-281 | `MPrep.toMC` |
| `CTMC.save` | 283-297 | `MText.ctmc_save` |
| `CTMC.savePrism` | 299-310 | `MPrism.command`, `MPrism.ctmc_savePrism` |
| `CTMC._savePrismMatrix` | 312-319 | `MPrism.command` |
| `loadCTMC` | 321-345 | `MText.loadCTMC` |
| `CTMC_random` | 347-424 | `MRandom.CTMC_random` |
| `createCTMC` | 426-500 | `MCtor.fill`, `MCtor.createCTMC` |
| `synchronousCompositionCTMCs` | 503-649 | `MCompose.str_nat`, `MCompose.init_ids`, `MCompose.sids`, `MCompose.state_index`, `MCompose.put_cell`, `MCompose.add_trans`, ... |

## jajapy/gohmm/GoHMM.py

| function | lines | modelled by |
|---|---|---|
| `GoHMM.__init__` | 32-48 | `MCtor.GoHMM_new`, `MModels.gohmm` |
| `GoHMM.mu` | 50-64 | `MPAcc.go_mus` |
| `GoHMM.mu_n` | 66-82 | `MModels.go_mu` |
| `GoHMM.b` | 85-104 | `MModels.go_b` |
| `GoHMM.b_n` | 106-129 | `MModels.go_b_n` |
| `GoHMM.next_obs` | 131-146 | `MRun.go_next` |
| `GoHMM.tau` | 148-168 | `MModels.go_tau` |
| `GoHMM.save` | 170-184 | `MText.go_out_val` |
| `GoHMM._stateToString` | 186-191 | `MPrint.go_state_str` |
| `loadGoHMM` | 194-219 | `MText.as_pair` |
| `GoHMM_random` | 221-276 | `MRandom.GoHMM_random` |
| `createGoHMM` | 279-325 | `MCtor.fill`, `MCtor.enumerate_int` |

## jajapy/hmm/HMM.py

| function | lines | modelled by |
|---|---|---|
| `HMM.__init__` | 9-39 | `MCtor.out_rows_ok`, `MModels.hmm` |
| `HMM.b` | 41-67 | `MCtor.mat_a`, `MModels.hmm_b` |
| `HMM.tau` | 69-93 | `MModels.hmm_a` |
| `HMM.getAlphabet` | 95-114 | `MAlph.HMM_getAlphabet` |
| `HMM._stateToString` | 116-121 | `MPrint.hmm_state_str` |
| `HMM.save` | 123-140 | `MText.hmm_save` |
| `HMM.next_obs` | 142-152 | `MAlph.HMM_next_obs` |
| `loadHMM` | 155-181 | `MText.loadHMM` |
| `HMM_random` | 184-228 | `MRandom.HMM_random` |
| `createHMM` | 231-284 | `MCtor.fill`, `MCtor.fill_out` |

## jajapy/mc/Alergia.py

| function | lines | modelled by |
|---|---|---|
| `PTA_node.__init__` | 7-11 | `MAlergia.pnode` |
| `PTA_node.addKid` | 13-16 | `MAlergia.addKid` |
| `PTA_node.findKid` | 18-22 | `MAlergia.findKid_in` |
| `PTA_node.incKid` | 24-35 | `MAlergia.inc_in` |
| `PTA_node.replaceKid` | 37-42 | `MAlergia.replace_in` |
| `PTA.__init__` | 45-64 | `MAlergia.pta_trace`, `MAlergia.pta_root`, `MAlergia.alergia_sort` |
| `PTA.addKids` | 66-72 | `MAlergia.addKids` |
| `PTA.compatible` | 74-104 | `MAlergia.all_opt` |
| `PTA.merge` | 106-109 | `MAlergia.pmerge` |
| `PTA.fold` | 111-120 | `MAlergia.pfold` |
| `PTA.pprint` | 122-123 | not modelled: debugging output |
| `PTA.toMC` | 125-153 | `MAlergia.bfs`, `MAlergia.mc_row`, `MAlergia.toMC` |
| `Alergia.__init__` | 162-163 | not modelled: empty |
| `Alergia.fit` | 165-223 | `MAlergia.first_compatible`, `MAlergia.blue_of`, `MAlergia.alergia_loop`, `MAlergia.alergia_fit` |
| `Alergia._initialize` | 225-239 | not modelled: local variables of fit in MAlergia.v |
| `Alergia.createPTA` | 241-246 | `MAlergia.alergia_sort` |

## jajapy/mc/MC.py

| function | lines | modelled by |
|---|---|---|
| `MC.__init__` | 8-32 | `MCtor.MC_new`, `MModels.mc` |
| `MC.tau` | 34-68 | `MCtor.MC_a`, `MModels.mc_tau` |
| `MC.a` | 70-93 | `MCtor.MC_a`, `MModels.mc_a` |
| `MC.next` | 95-120 | `MRun.mc_next` |
| `MC.run` | 122-150 | `MRun.mc_run_from`, `MRun.mc_run`, `MRunFrom.mc_run_true`, `SChance.v` |
| `MC.save` | 152-166 | `MText.mc_save` |
| `MC._stateToString` | 168-173 | `MPrint.mc_state_str` |
| `MC.savePrism` | 175-186 | `MPrism.mc_savePrism` |
| `MC._savePrismMatrix` | 188-195 | `MPrism.command` |
| `loadMC` | 198-227 | `MText.loadMC` |
| `MC_random` | 229-279 | `MRandom.init_row`, `MRandom.MC_random` |
| `createMC` | 281-350 | `MCtor.fill`, `MCtor.with_init`, `MCtor.createMC` |

## jajapy/mdp/Active_BW_MDP.py

| function | lines | modelled by |
|---|---|---|
| `ActiveLearningScheduler.__init__` | 14-26 | `MActive.al_state`, `MActive.al_new` |
| `ActiveLearningScheduler.reset` | 28-33 | `MActive.al_state`, `MActive.al_reset` |
| `ActiveLearningScheduler.getActionState` | 35-52 | `MActive.al_weights`, `MActive.al_getActionState` |
| `ActiveLearningScheduler.getAction` | 55-71 | `MActive.al_states`, `MActive.al_getAction` |
| `ActiveLearningScheduler.addObservation` | 74-91 | `MActive.al_count`, `MActive.al_addObservation` |
| `Active_BW_MDP.__init__` | 100-101 | not modelled: calls the base class |
| `Active_BW_MDP.fit` | 104-270 | `MActive.lr_it`, `MActive.active_iter`, `MActive.active_loop`, `MActive.active_fit` |
| `Active_BW_MDP._mergeModels` | 272-286 | `MActive.mix_matrix` |
| `Active_BW_MDP._addTraces` | 288-326 | `MActive.sample_loop`, `MActive.addTraces` |
| `Active_BW_MDP._strategy` | 328-339 | `MActive.strategy` |
| `Active_BW_MDP._computeProbas` | 341-355 | `MActive.computeProbas` |

## jajapy/mdp/IOAlergia.py

| function | lines | modelled by |
|---|---|---|
| `IOFPTA_state.__init__` | 8-27 | `MIOAlergia.iotrans` |
| `IOFPTA_state.counterAdd` | 29-38 | not modelled: an addition, part of move_counter and of the tree construction in MIOAlergia.v |
| `IOFPTA_state.setId` | 40-49 | not modelled: part of MIOAlergia.v (numbering) |
| `IOFPTA_state.successors` | 51-66 | `MIOAlergia.dests` |
| `IOFPTA_state.successorsAction` | 68-80 | `MIOAlergia.successorsAction` |
| `IOFPTA_state.transitionsAdd` | 83-100 | `MIOAlergia.tr_add` |
| `IOFPTA_state.transitionChange` | 102-115 | `MIOAlergia.change_first` |
| `IOFPTA_state.getTransitionProb` | 117-134 | `MIOAlergia.freq_to` |
| `IOFPTA_state.actionAllowed` | 136-150 | `MIOAlergia.actionAllowed` |
| `IOFPTA_state.actionsAllowed` | 152-161 | `MIOAlergia.actionsAllowed` |
| `IOFPTA_state.__str__` | 163-164 | not modelled: debugging output |
| `IOFPTA.__init__` | 172-188 | not modelled: attributes, fields of the records of MIOAlergia.v |
| `IOFPTA.__str__` | 190-194 | not modelled: debugging output |
| `IOFPTA.addInitialState` | 196-198 | not modelled: the list of initial states is only used by runSeq |
| `IOFPTA.successor` | 200-224 | `MIOAlergia.first_obs` |
| `IOFPTA.compatible` | 226-256 | `MIOAlergia.io_compatible` |
| `IOFPTA.hoeffding` | 258-296 | `MIOAlergia.total` |
| `IOFPTA.findPredec` | 298-319 | `MIOAlergia.findPredec` |
| `IOFPTA.merge` | 321-354 | `MIOAlergia.redirect`, `MIOAlergia.merge` |
| `IOFPTA.runSeq` | 356-386 | not modelled: not called anywhere |
| `IOFPTA.cleanMDP` | 389-415 | `MIOAlergia.clean_row` |
| `IOAlergia.__init__` | 424-425 | not modelled: attributes, fields of the records of MIOAlergia.v |
| `IOAlergia._initialize` | 427-440 | `MIOAlergia.ioalergia_fit` |
| `IOAlergia._buildIOFPTA` | 442-484 | `MIOAlergia.count_in`, `MIOAlergia.label_sort`, `MIOAlergia.drop2`, `MIOAlergia.buildIOFPTA` |
| `IOAlergia.fit` | 486-561 | `MIOAlergia.first_red`, `MIOAlergia.new_blue`, `MIOAlergia.io_loop`, `MIOAlergia.ioalergia_fit` |

## jajapy/mdp/MDP.py

| function | lines | modelled by |
|---|---|---|
| `MDP.__init__` | 15-45 | `MCtor.mdp_rows_ok`, `MModels.mdp` |
| `MDP.getActions` | 47-73 | `MAlph.MDP_getActions`, `MCtor.getActions` |
| `MDP.tau` | 76-116 | `MCtor.MDP_a`, `MModels.mdp_tau` |
| `MDP.a` | 118-143 | `MCtor.MDP_a` |
| `MDP.next` | 145-182 | `MRun.mdp_next` |
| `MDP.run` | 184-220 | `MActive.g_choose`, `MActive.g_run_from`, `MActive.g_run`, `MRun.mdp_choose`, `MRun.mdp_run_from`, `MRun.mdp_run`, ... |
| `MDP.generateSet` | 222-270 | `MRun.gen_size`, `MRun.generateSet` |
| `MDP.save` | 272-288 | `MText.mdp_save` |
| `MDP._stateToString` | 290-296 | `MPrint.mdp_state_str` |
| `MDP.savePrism` | 298-309 | `MPrism.mdp_savePrism` |
| `MDP._savePrismMatrix` | 311-319 | `MPrism.command` |
| `MDP._logLikelihood_oneproc` | 321-358 | `MLik.fstep`, `MLik.pairs_of`, `MLik.mdp_oneproc_loop`, `MLik.mdp_oneproc` |
| `MDP._updateAlphaMatrix` | 360-406 | `MLik.fstep`, `MLik.updateAlphaMatrix` |
| `MDP._logLikelihood_multiproc` | 408-414 | `MLik.fstep`, `MLik.mdp_logLikelihood`, `MPool.pool` |
| `MDP._computeAlphas` | 416-444 | `MLik.fstep`, `MLik.pairs_of`, `MLik.mdp_prob`, `MLik.mdp_computeAlphas` |
| `loadMDP` | 446-472 | `MText.loadMDP` |
| `MDP_random` | 475-536 | `MRandom.init_row`, `MRandom.mdp_random_row`, `MRandom.MDP_random` |
| `createMDP` | 539-600 | `MCtor.fill_mdp` |

## jajapy/mdp/Scheduler.py

| function | lines | modelled by |
|---|---|---|
| `Scheduler.__init__` | 7-8 | `MRun.scheduler` |
| `Scheduler.getAction` | 10-11 | `MRun.scheduler` |
| `Scheduler.reset` | 13-14 | `MRun.scheduler` |
| `Scheduler.addObservation` | 16-17 | `MRun.scheduler` |
| `UniformScheduler.__init__` | 24-34 | `MRun.uniform_weights` |
| `UniformScheduler.getAction` | 36-45 | `MRun.uniform_weights` |
| `MemorylessScheduler.__init__` | 52-63 | `MRun.memoryless_get` |
| `MemorylessScheduler.getAction` | 65-79 | `MRun.memoryless_get` |
| `FiniteMemoryScheduler.__init__` | 87-110 | `MRun.assoc` |
| `FiniteMemoryScheduler.reset` | 112-117 | `MRun.assoc`, `MRun.fm_get` |
| `FiniteMemoryScheduler.getAction` | 119-128 | `MRun.assoc`, `MRun.fm_get`, `MRun.fm_obs` |
| `FiniteMemoryScheduler.addObservation` | 130-141 | `MRun.assoc`, `MRun.fm_obs` |
| `FiniteMemoryScheduler.getActions` | 143-163 | `MRun.assoc` |
| `FiniteMemoryScheduler.getSequenceStates` | 165-185 | `MRun.assoc`, `MRun.fm_add_observation`, `MRun.fm_getProbability` |
| `FiniteMemoryScheduler.getProbability` | 187-209 | `MRun.assoc`, `MRun.fm_getProbability` |

## jajapy/pctmc/PCTMC.py

| function | lines | modelled by |
|---|---|---|
| `PCTMC.__init__` | 13-56 | `MPCompose.put16`, `MPctmc.pctmc` |
| `PCTMC.e` | 58-72 | `MPctmc.pc_eval` |
| `PCTMC.l` | 74-97 | `MPctmc.pc_l` |
| `PCTMC.lkl` | 99-120 | `MPctmc.pc_lkl` |
| `PCTMC.tau` | 122-147 | `MPctmc.pc_tau` |
| `PCTMC.expected_time` | 149-170 | `MPctmc.pc_expected_time` |
| `PCTMC._checkRates` | 172-181 | `MPctmc.checkRates` |
| `PCTMC.instantiate` | 183-206 | `MPctmc.instantiate` |
| `PCTMC.randomInstantiation` | 208-258 | `MPctmc.default_params` |
| `PCTMC._stateToString` | 260-270 | `MPPrint.pc_rate_str` |
| `PCTMC.next` | 272-292 | `MPctmc.pc_exps` |
| `PCTMC.run` | 294-323 | `MPAcc.pc_run_untimed`, `MPctmc.pc_run_from` |
| `PCTMC._computeAlphas_timed` | 325-337 | `MPctmc.pc_w` |
| `PCTMC.logLikelihood` | 339-367 | `MPScore.it`, `MPctmc.pc_w`, `MPctmc.pc_logLikelihood_timed` |
| `PCTMC.save` | 369-383 | `MPText.Sym`, `MPText.pctmc_save` |
| `PCTMC.savePrism` | 385-430 | `MPPrism.caret`, `MPPrism.const_line`, `MPPrism.rate_text`, `MPPrism.pctmc_savePrism` |
| `loadPCTMC` | 433-459 | `MPText.Sym`, `MPText.sympify` |
| `createPCTMC` | 461-546 | `MPctmc.create_step`, `MPctmc.createPCTMC` |
| `synchronousCompositionPCTMCs` | 548-622 | `MPCompose.find_or_add`, `MPCompose.add_sync16`, `MPCompose.shift2`, `MPCompose.unused`, `MPCompose.compose_loop`, `MPOrder.unused_loop`, ... |
| `synchronousComposition2PCTMCs` | 624-752 | `MPCompose.put_cell16`, `MPCompose.add_names`, `MPCompose.ref`, `MPCompose.sync_trans`, `MPCompose.init_trans16`, `MPCompose.add_init16`, ... |

## jajapy/with_stormpy/model_converter.py

| function | lines | modelled by |
|---|---|---|
| `stormpyModeltoJajapy` | 11-139 | `MStorm.sparse`, `MStorm.state_label`, `MStorm.labelling_of`, `MStorm.add_init_of`, `MStorm.nat_text`, `MStorm.dense_row`, ... |
| `jajapyModeltoStormpy` | 141-171 | `MStorm.sparse`, `MStorm.PCTMCtoStormpy` |
| `_buildStateLabeling` | 173-179 | `MStorm.state_labelling` |
| `MDPtoStormpy` | 181-213 | `MStorm.MDPtoStormpy`, `MStorm.choice_labels` |
| `MCtoStormpy` | 215-236 | `MStorm.MCtoStormpy` |
| `CTMCtoStormpy` | 238-263 | `MStorm.CTMCtoStormpy` |
| `PCTMCtoCTMC` | 265-290 | `MStorm.PCTMCtoCTMC` |
| `loadPrism` | 292-326 | not modelled: calls stormpy (not modelled), then stormpyModeltoJajapy |
