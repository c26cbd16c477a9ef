# Formal model of jajapy in Rocq (Coq 8.16.1)

This document was written before the proofs and is kept current.  Section 1
explains how the Python code is modelled, section 2 states the trusted base,
section 3 gives the plan property by property (ids refer to
`properties.jsonl`), section 4 lists the findings (places where the code does
not do what its user would rely on, each with a `_refuted` theorem).

## 1. Modelling approach

* **Shallow, function by function.** Each Python function is a total Gallina
  function whose branches follow the Python branches in order. Each definition
  is preceded by a comment with the file and the lines of /repo it models, and
  the simplifications made.  Model files (`M*.v`) contain no proofs,
  specification files (`S*.v`) contain only small definitions used in theorem
  statements, proof files (`L*.v`) contain lemmas, and the `P*.v` files contain
  the theorems that answer the properties, with concrete instances next to them.
* **Numbers.** Model functions are parametric in a number type `K` with a
  record `Num K` of operations (0, 1, +, *, -, /, comparisons, floor). It is
  instantiated at `R` (theorems), at `Q` (execution with `vm_compute`, used for
  tests) and at Coq's primitive binary64 floats (C136, C137). Except in C136,
  C137 and the theorems quantified over all `Num K`, statements are about exact arithmetic. Division by zero is never relied
  upon: where the code can divide by zero, the model has an explicit branch or
  the theorem has an explicit hypothesis.
* **Exceptions** are values of `res A := Ok a | Err e` with `e` the Python
  exception class.
* **Randomness** is an explicit argument: the list (or function) of values
  returned by the generator. Theorems quantify over all of them.
* **Mutation and aliasing.** A method that mutates its receiver or arguments
  returns the new values next to its result. When the aliasing itself matters
  (toMC, active learning, shared default arguments, Alergia's graph) objects
  live in an explicit heap.
* **Processes.** A worker pool is a list of slots, filled in any order chosen
  by an adversarial schedule.
* **Unordered containers.** `list(set(l))` is modelled by "some permutation of
  the distinct elements", given as an argument where the order matters.

## 2. Trusted base

* Coq's kernel (coqc/coqchk 8.16.1).
* Axioms: only those of the standard library's real numbers
  (`ClassicalDedekindReals.sig_forall_dec`, `ClassicalDedekindReals.sig_not_dec`,
  `FunctionalExtensionality.functional_extensionality_dep`) and
  `Classical_Prop.classic` (used by the standard library's analysis: derivatives,
  `ln`, `sqrt`), and only in the theorems about real arithmetic. The instance
  `C115_instance` (a root finder exists: it is chosen among the factorisations)
  also uses `Coq.Logic.ClassicalEpsilon`'s `constructive_indefinite_description`;
  no theorem does.  The theorems of C136 about double precision use the
  primitive floats and 63-bit integers of Coq (`Coq.Floats.PrimFloat`,
  `Coq.Numbers.Cyclic.Int63.PrimInt63`), which `Print Assumptions` lists, and
  their evaluation by `vm_compute`; no axiom about them.  Those of C137 also use
  axioms of `Coq.Floats.FloatAxioms` (`add_spec`, `mul_spec`, `div_spec`,
  `leb_spec`, `eqb_spec`: the operations are those of IEEE 754).  The `<` of the
  model is the negation of `>=`, so comparisons with NaN differ from Python's.  Theorems about
  sets, prefix trees, text and composition sizes are closed under the global
  context, except where a probability occurs in them. Each `P*.v` file ends with `Print Assumptions`
  for each of its theorems.
* `COVERAGE.md` (generated by `tools/coverage.py`) lists every function of the library with the
  definitions that model it, or the reason why it is not modelled.
* The faithfulness of the hand-written model to the Python source (no code
  generation), of numpy/Python primitives as described in the comments, and
  the idealisations of section 1.

Not modelled: floating-point rounding (except in C136, C137) and the extended
precision used for timed CTMCs and GoHMMs, stormpy itself, sympy's simplifier,
printing (`__str__`) of Alergia's trees, progress bars, file-system errors, operating-system
process failures, numpy broadcasting errors on non-rectangular matrices.

## 3. Plan per property

| id | what is modelled | how it is proved |
|----|------------------|------------------|
| C01, C02 | `resolveRandom` as a scan of the cumulated sums | induction on the list, interval characterisation |
| C03 | constructor check + `resolveRandom` | refuted by a row with sum 0.9996 and guarded version for sum exactly 1 |
| C04 | `normalize`, `randomProbabilities` (draws as argument) | algebra on sums |
| C05, C06 | `checkProbabilities` with rounding to 3 decimals, half to even | floor arithmetic; C06 refuted by (2,-1) |
| C07 | `hoeffdingBound` over R (sqrt, ln) | real analysis |
| C08-C11, C13 | class `Set` over an arbitrary type of sequences with decidable equality | induction, counting functions as specification |
| C12, C14 | positions of symbols, type inference on dynamically typed traces | induction |
| C15, C65 | text format: Python `repr` and `literal_eval` on strings, ints, floats (opaque tokens), lists | parser/printer round trip by induction |
| C16-C18 | constructors and accessors, dynamic argument types | case analysis, floor arithmetic |
| C19-C21, C70, C72 | `create*` | induction over the transition list |
| C22-C26 | `run`, `generateSet` with explicit draws | induction on the number of steps, using C01 |
| C27, C28 | forward algorithm | specification = sum over explicitly enumerated paths; induction on the trace |
| C29-C32 | `logLikelihood` in both variants | invariant on the shared forward matrix |
| C33-C37 | Baum-Welch forward/backward, E- and M-steps for MC, HMM, MDP, CTMC | algebra of sums; induction on rounds |
| C38-C41, C71 | likelihood monotonicity (EM) | path sums, Gibbs inequality over R |
| C42 | `_bw` loop | potential argument from monotonicity and boundedness |
| C43, C44 | worker pool | all schedules; C44 refuted in presence of impossible sequences |
| C45-C49 | fixed parameters, training-set preparation, compatibility test | guarded theorems and refutations |
| C50, C51 | PCTMC instantiation with polynomial rates | refutation and frame property |
| C86 | `PCTMC.__init__` | case analysis of the checks |
| C87 | PCTMC accessors and timed forward algorithm | simulation of the CTMC of the evaluated rates; denotational semantics of expressions |
| C88 | `PCTMC.next`, `run` | argmin over samples, as C25 |
| C89, C90 | `createPCTMC`, `parameterIndexes` | loop invariant over the prefix of the transitions |
| C91 | `randomInstantiation` | rejection loop with fuel |
| C52 | `synchronousCompositionCTMCs`: the matrix of references, the expressions, the parameters and their positions, the removal of states | invariant tying every cell to its expression, carried through the six phases and the removals; refutations for sizes, self loops, 8-bit references, position of 'init' |
| C53 | `synchronousCompositionPCTMCs` with the content of the shared default list as explicit state; programs as lists of calls | induction on the history; refutation with three models |
| C92 | `synchronousComposition2PCTMCs`, addition of synchronous transitions, `removeUnreachableState`, `removeUnusedTrans` | invariant on cells, expressions and positions; equality of denotations for all valuations; refutations for the guards |
| C54 | `toMC` returning the chain and the CTMC after the call | the chain is the embedded one; refutation of the frame property |
| C55-C57 | Alergia's graph in an explicit heap | invariants of merging |
| C58, C59 | IOAlergia: cleaning of the automaton, merging with the states in an explicit heap | row-by-row characterisation from the loop invariant when every action is tried (C58) or only one of the merged prefixes uses the action (C59); refutations |
| C93-C96 | IOAlergia `fit` as a whole | invariant of the red-blue loop: the blue parts are forests, a map from the prefixes to the current states is a quotient of the prefix tree; termination by the number of blue nodes; refutations |
| C97 | `output_file_prism` | the call always raises |
| C98 | `compatible`, `hoeffding` | the recursive test as a statement on common continuations; refutation for one-sided observations |
| C99 | `_buildIOFPTA` | exact content of the tree |
| C60-C62 | schedulers | interval characterisations |
| C63, C103 | weights of the exploration scheduler, the loop asking for an action | exact set of the proposals; refutations: unused states, loop that never ends |
| C64 | `_mergeModels` and the loop of `fit`, models in an explicit heap | equality of `fit` for all nonzero rates; refutation of the average |
| C100 | belief and counts after a history | path sums, induction on the history |
| C101 | `_strategy`, `_computeProbas` | equality with the denominators of the Baum-Welch round, path sums; refutation for one process |
| C102 | `_addTraces`: runs of the system with a scheduler that has memory and uses several draws per question | induction on the run, for any scheduler |
| C104-C106 | `fit`: initial fit, iterations | invariant of the iterations: valid hypothesis, multiset of traces, a possible trace stays possible; refutations for lists, one process, default arguments |
| C107-C110 | parameter learning: `_sortParameters`, `_processWork_PCTMC`, `_update_PCTMC`, `_bw`, `fit_parameters` (`MPLearn.v`); vocabulary in `SPLearn.v` | the update maximises a minorant of the likelihood (weighted arithmetic-geometric inequality, one factor per parameter, LMM.v); EM inequality for timed and untimed chains; induction on the rounds |
| C111-C114 | the entry points `fit`, `fit_parameters`, `fit_nonInstantiatedParameters` with the state of the BW object | refutations, for all inputs where the call always raises |
| C115 | `max(polyroots(...))` on complex roots with numpy's order (`MPRoot.v`); complex polynomials in `SPRoot.v` | sign changes give one positive solution; coefficients of the factored polynomial bound the other roots up to degree 3; a degree 4 model refutes the general claim. The root finder itself is a hypothesis: it lists all the complex roots with multiplicity (`finds_roots`) |
| C116 | removal of states and parameters at the start of `fit_parameters`; vocabulary in `SPPrune.v` | induction on the removed states; path sums over the kept states |
| C117, C118 | the methods stored in a BW object (`MBWObj.v`), and the exceptions of the workers | induction on the history of calls; equality of the rounds |
| C119 | `save`, `loadPCTMC` (`MPText.v`): dict literals, integer lists, texts of expressions (class `Sym`, abstract) | induction on the dict and the lists; the constructor accepts its own result again |
| C120 | `PCTMC.savePrism` (`MPPrism.v`), reader with constants and rates as word lists (`SPPrism.v`) | as C66: words of a concatenation, induction on the lines |
| C121 | `stormpyModeltoJajapy` for DTMCs and CTMCs (`MStorm.v`) over the record `sparse` of what it reads from stormpy; spec in `SStorm.v` | the loop over transitions writes the row it should (induction), sorted label text is unique, constructor theorem C16 |
| C122 | as C121, probability of a trace from the spec of C01 | the additional state is left at once and never entered: induction on the trace |
| C123 | `MCtoStormpy`, `CTMCtoStormpy` with or without stored zeros | writing the sparse row of a row gives the row |
| C124 | as C121 and C123, convention of stormpy stated as `storm_ctmc` | consequence of C121 and of the export; counterexamples |
| C125 | `stormpyModeltoJajapy` for MDPs, order of `list(set(..))` arbitrary | as C121 for each action |
| C126 | `MDPtoStormpy`, its choice labels | as C123 for each action |
| C127 | `PCTMCtoCTMC` | evaluation theorem of C86, constructor C16 |
| C128 | `stormpyModeltoJajapy` for parametric CTMCs, `gather_variables` arbitrary | invariant of the loop over all transitions: matrix, expressions, parameters, positions |
| C129 | `_createInitialModel` and `fit` without initial model (`MInit.v`), over `MRandom.v`; random draws are functions | from C69 the support of the random model; a path through states with the labels of the trace has positive weight, any other weight is 0 |
| C130, C131, C132 | `fit_random`: training set, random model, Baum-Welch | C47 gives the prepared set and alphabet, C129 positive probability of each trace, C42 termination, C34/C36/C41 validity, monotone invariant of the loop for positivity and likelihood; `_refuted`: impossible traces stay impossible and one process cannot skip them |
| C133 | constructors applied to the attributes after `bw_loop` | row sums stay accepted (0, 1 or unchanged) as a loop invariant, then C16; C65, C67, C123 as corollaries |
| C134 | trace probabilities of the models before and after `bw_loop` | zeros stay zeros (C37) so the support of every path weight shrinks; C38-C41 for the training traces; C22-C24 for simulation |
| C135 | `fit_random` for sets of vectors, lists, other types | C69 gives a first hypothesis with positive parameters, C75 keeps them positive, so every round succeeds; C71 for the likelihood; case analysis on the type for the rest |
| C136 | the same model functions at `float` (MFloat.v) | words over two symbols with the same weight reach the same floats as the words of heads, which reach 0 after 1075 steps and stay there; exact counterparts by C42, C22 |
| C137 | the same model functions at `float` and at any number type | zeros and NaN are closed under the operations used (LAny.v, for any such class of numbers); a worker that fails is the only effect of the number of processes; adding 0 does not change a comparison, so the drawn index has non-zero weight |
| C138 | `__str__`, `_stateToString` of MC, HMM, MDP, CTMC, GoHMM (MPrint.v); `str` and `round` of numbers abstract | an independent reader of the text (SPrint.v) splits it into lines and sections; each printed line is read back as what it was written for (LPrint.v) |
| C139 | `run` of MC, HMM and MDP (MRun.v), draws of `random()` as a sequence | boxes of draws (SLaw.v) built along the trace; the draw that selects an entry lies in its interval of the cumulated row; disjoint by uniqueness of the selected entry; volumes multiply along the path |
| C140 | `HMM.getAlphabet`, `next_obs`, `MDP.getActions` (MAlph.v) | an entry is selected by some draw iff it is positive |
| C141 | `Parametric_Model.__str__`, `PCTMC._stateToString` (MPPrint.v); `str` of numbers and sympy expressions abstract | the reader of SPrint.v, extended with lines of parameter values; each printed line is read back as what it was written for |
| C142 | the Python types of the counts of a `Set`: list of int, integer or float numpy array (MSetNum.v) | the typed operations erase to those of MSet.v; an invariant (integer counts, non-empty) |
| C143 | `CTMC.lkl`, `expected_time` (MModels.v) | fundamental theorem of calculus on -exp(-rate t) and its product with t |
| C144 | `fit` of MC, HMM, MDP, CTMC, GoHMM and `logLikelihood` (MBW.v, MLik.v) | forward-backward quantities of the renumbered and renamed model (LSym.v), then the round specifications of C73; loop by induction on the fuel; likelihood by reindexing the sum over paths |
| C145 | one round and the main loop of `fit` (MBW.v), distance moved (SGain.v) | entrywise bound x ln(x/y) >= 2x - 2 sqrt(xy) in the EM inequality (LEM.v, LEMGen.v) gives the gain; zero gain forces equal rows; loop by induction (LGain.v); parametric CTMCs: strict convexity of the equation each parameter solves (LStrict.v, PStrict.v), untimed traces by comparing the jump chains (LStrict2.v, PStrict2.v) |
| C146 | one round (MBW.v), straight lines between parameters and derivative of the log-likelihood along them (SGrad.v) | derivative of the backward recursion by induction (LGrad.v); the slope is the sum of expected counts times relative changes; towards the re-estimate it is a weighted sum of squares (LGrad2.v); for one parameter of a parametric CTMC the rates follow a power of the parameter, and the new value solves an equation that is strictly increasing (PGrad4.v); untimed traces through the jump chain, whose probabilities are quotients of such powers (PStrict2.v) |
| C147 | run with an explicit `current`, MDP included, and run called by generateSet with timed=True (MRun.v, MRunFrom.v) | shift of the random draws and induction on the number of steps; Python indexing lemma; first row of a flattened matrix |
| C148 | endless sequences of rounds (MBW.v), converging subsequences, entry by entry limits of models (SLimit.v) | every quantity of a round is continuous in the parameters (LLimit.v); increments of a bounded growing sequence vanish and bound the moves (C145), so the limit does not move; Bolzano-Weierstrass for the existence of limits; rates are bounded by the inverse of the shortest dwell time |
| C149 | rounds of MBW.v on models with pairwise different labels; counts read directly from the traces (SObs.v) | with different labels only one path fits a trace, so the expected counts of C73 are the observed counts (LObs.v); MC: closed form of the iterates, limit through C148; optimality by monotonicity of a round (C38, C40, C41) started from the competing model (PObs.v, PObs2.v; cases in PObsEx.v); the loop of fit: a second round leaves the likelihood unchanged, so the loop stops by its third iteration (PObs3.v); untimed CTMCs through the jump chain of C46 (PObs4.v); uniqueness of the best parameters from the strict progress of C145 (PObs5.v) |
| C150 | logLikelihood of MLik.v for MC, HMM, untimed CTMC (one type `source`, SGibbs.v) and MDP; entropy of a set | the laws of traces sum to 1 (C28, extended to any alphabet), Gibbs' inequality with its case of equality (LGibbs.v), values of logLikelihood from C27; refuted when the other model cannot emit some trace. Densities (timed CTMCs, Gaussian models) are not covered: their law is not a sum over traces |
| C151 | `next` and `run` of CTMCs (MRun.v) with one sample per rate as input; the law of the samples is specified (SRace.v): exponential densities, independence as a product | `next` returns (i, t) iff sample i is t and wins the race; products of exponentials; integrals by the fundamental theorem of calculus (PLkl.v); induction over the run and over paths; refuted beyond the constant 1024 |
| C152 | `fit` and `logLikelihood` of all classes once more, in the arithmetic of numpy with inf and nan but without rounding (MExt.v: instance `XNum` of the same generic definitions) | the embedding of the real numbers commutes with every operation whose divisor is not zero (LExt*.v); each round divides only by numbers that are not zero; induction over the rounds; refuted for CTMCs with a state that cannot be left, on untimed traces |
| C153 | `logLikelihood` of CTMCs on untimed traces with one process and of PCTMCs in both versions (MPScore.v) | the loop of the single-process version is a fold over the traces in any arithmetic; lifting as for C152; the additional move of that version adds nothing because the jump probabilities sum to 1; refuted for PCTMCs with several processes (no method `b`) and for states that cannot be left |
| C154 | `go_run` (MRun.v) with normal samples mu + sigma z | the path is determined by the draws (C23) and the box of a path has its probability as volume; the observations determine the standard samples; change of variables in the normal density |
| C155 | `mdp_run`, `mdp_choose` and the schedulers (MRun.v), any scheduler given by distributions over actions and a transition | boxes with at most N refusals per step, by recursion; pairwise disjoint; volumes are partial geometric sums and converge (Un_cv); the run equivalence by induction on the steps and on the draws |
| C156 | `round_MC`, `round_HMM`, `round_MDP` (MBW.v) started from the model, training set with exact frequencies (SExact.v) | the expected counts of C73 summed over all words of a length: the future of each step sums to 1 and the past gives the state distribution, so moves / visits is the transition probability; the sum over the set is grouped by length (or by actions); then the loop stops at the second round |
| C157 | `logLikelihood` of the five classes (MLik.v), `addSet` (MSet.v) | the sum over state paths as a nested sum (`hB`): the last factors sum to 1 over all words, and are at most 1 for each word; joined sets have the multiplicities of the concatenation and the score depends only on multiplicities |
| C158 | `synchronousCompositionCTMCs` (MCompose.v) | from C52: the rates of the product are symmetric under the exchange of the components, so reachable pairs are exchanged; every pair with a non-zero rate from a reachable pair is kept, so sums over the states are sums over all pairs |
| C159 | `Alergia.fit` (MAlergia.v), `logLikelihood` (MLik.v) | from C80 (deterministic quotient with frequencies): only one path of states carries a training trace, so the log-likelihood is a sum of visits times logarithms of transitions; Gibbs' inequality row by row, with its equality case; without merging, visits are prefix counts and the product telescopes |
| C160 | `generateSet` (MRun.v), `run` of MC and HMM, `logLikelihood` (MLik.v) | an event has probability p when its draws are disjoint boxes of total volume p (SChance.v); p is determined by the event by slicing off one draw and counting grid points; products over consecutive draws, sums over exclusive events; the law of one run (C139) then gives the law of a set, Chebyshev's inequality by induction on the number of traces, and Gibbs' inequality (C150) a positive gap between the expected scores |
| C161 | `generateSet`, `run` (MRun.v), `round_MC` (MBW.v) | C160 for finitely many averages at once; the expected number of moves from s to s' is the probability of the move times the expected number of times s is left (sums over all traces of a length, LExact.v); C149: the distance between the learned probability and the observed frequency shrinks by a constant factor per round, here bounded uniformly over the generated sets |
| C162 | `MDP.run` with `UniformScheduler`, `generateSet` (MRun.v), `round_MDP`, the loop of `fit` (MBW.v) | the law of MDP.run (C139) and totality of the simulation give independent traces; generic form of C160 (LChance3.v); the expected number of moves is the probability times the expected number of trials (LExact2.v); the first round gives the observed frequencies (C149) and later rounds keep them, so the claim is about the MDP returned by fit for every stopping rule |
| C163 | `loadMC` ... `loadGoHMM`, `loadSet` (MText.v), `loadPCTMC` (MPText.v), constructors (MCtor.v) | each load function ends with its constructor, whose acceptance rule is C16; the name comes from one line after newline translation, so C65 applies to what was loaded; newline translation undoes CR LF and CR (PAnyFile.v) |
| C164 | `save` and `load` functions (MText.v, MPText.v) | what `literal_eval` reads from a list does not depend on what follows it, so a proper beginning of a written list is not a literal (LCut.v); a cut file has no whole last line, and the last line of every model file is a list; for sets an induction over the pairs of lines (PCut.v) |
| C165 | `compose_loop` (MPCompose.v), product of tuples (SMany.v) | induction on the list of models: the intermediate result before cleaning is the full product and again a component (C92); the rates of tuples are those of pairs (tuple, last state); cleaning happens once, after the last model |
| C166 | the same, results compared through the numbering of the tuples | the product rate of a list of (part, state, next state) is invariant under Permutation; the reachable tuples are carried over by the permutation and its inverse; the cleaned composition is itself a component whose product with one more part has the rates of the longer product |
| C167 | both composition functions (MCompose.v, MPCompose.v) and `instantiate` (MPctmc.v) | the product of C92 evaluated at the values is the product of C52; the pairs reachable for the values are among those reachable for some values; numbering of the reachable pairs as in C158 |
| C168 | the loop of `removeUnusedTrans` with the order of the set as an argument (MPOrder.v) | two removals commute after renumbering; induction on the length of the list for all permutations |
| C169 | the rounds of learning and the main loop (MBW.v) | every worker returns False; cases on the number of processes and the empty set |
| C170 | `fit_parameters` on a parametric CTMC whose labels identify the states (MPLearn.v); moves and exposure are read off the traces in SVisible.v | the expected counts are the observed ones (C149), a rate with one learned factor is linear in it so the update does not depend on the old values and the second iteration repeats it; optimality: one iteration from any other positive values reaches the same values, and by C109 it does not lower the likelihood; uniqueness: a round that changes a parameter with a positive exposure has a positive gain (LStrict.v, ln x < x - 1) |
| C66, C67 | Prism export as text (`MPrism.v`); a separate lexer and parser for one-module Prism files (`SPrism.v`) | reading the file gives back exactly the transitions, labels and initial state; refutation for several initial states |
| C85 | first line of the files | by computation on the reader; independence of the header for the functions that only print |
| C68, C69 | relabelling, random models | algebra |
| C73 | expected counts as sums over all paths | algebra of path sums |
| C74, C76 | weight of a trace in a round; value reported by `fit` | exact characterisation, refutations |
| C75 | Gaussian output update | algebra; refutations on unvisited states and constant data |
| C77 | division of a set among CPUs | arithmetic; refuted for one CPU |
| C78, C79 | random generators with explicit draws | exact entries, refutations |
| C80-C84 | Alergia: quotient, output file, training set, reserved label, merge test | invariants of merging, refutations |

## 4. Findings

Each line names what the code does and the theorem proving it about the model.

Tools and sets
* C03 A row of sum 0.9996 passes the constructor's check and simulation can then raise IndexError (`C03_accepted_row_can_raise_refuted`).
* C06 (2,-1) passes the probability check (`C06_checkProbabilities_refuted`).
* C09, C11 `to_list` and equality go wrong with zero multiplicities or repeated stored sequences.
* C14 Type inference raises IndexError on traces of one observation.

Constructors, accessors, simulation
* C16 CTMC accepts negative rates; HMM with a list as output raises AttributeError; HMM accepts initial vectors that are not distributions.
* C17 `pi` accepts negative state ids (they wrap around).
* C18 `MC.next` returns a numpy integer that the accessors of the same object reject.
* C20, C21 `createMC` reads `initial_state` as a position, accepts positions out of range in some forms, and extends the caller's label list.
* C22 `run` raises on absorbing states of an MC.
* C24 An MDP state without available action makes `run` loop for ever.
* C25 `CTMC.next` ignores waiting times of 1024 or more: with all samples that large no transition is selected.
* C26 `generateSet` fails for traces of length 1, and MC traces have one label more than asked for.
* C61, C62 `MemorylessScheduler.getActions` raises TypeError; `getSequenceStates` raises AttributeError on every non-empty sequence.
* C68 Changing the label of a state leaves the initial distribution stale and skips the length check.
* C70, C72 `createCTMC` broadcasts an empty initial list; `createGoHMM` always raises TypeError.
* C78, C79 `CTMC_random` draws inverse exit rates; `MDP_random(deterministic=True)` is not deterministic from the initial state or when there are more labels than states.

Likelihood and learning
* C29, C74 The likelihood of traces ending in an absorbing state depends on the operating system, and such traces are ignored by learning.
* C29 A set that holds the empty trace raises IndexError with several processes and gets a value with one (MC, HMM); an empty set does the opposite.
* C32 An impossible trace raises the average log-likelihood.
* C44 With one process an impossible training trace raises TypeError; with several it is ignored.
* C45 Fixed rates of a state with zero expected dwell double every round.
* C46 Untimed learning of a CTMC resets visited exit rates to 1.
* C75 The standard deviation of an unvisited GoHMM state is replaced by its square root; constant data drive it to 0.
* C76 The reported likelihood is the one before the last update; `max_it=0` raises UnboundLocalError.
* C77 `logLikelihood` raises ValueError on a machine with one CPU.
* A CTMC trace of certain probability is reported with log-likelihood -9999 (second part of `C27_ctmc_timed_logLikelihood`).

Alergia
* C81 `output_file_prism` always raises AttributeError.
* C82 A sequence stored twice gets the first multiplicity twice.
* C83 'init' at a later position is not always noticed; the learned chain then has two initial states.
* C84 The alphabet of the prefix tree omits symbols met only after the first new node of each trace: subtrees under those symbols are not compared.

IOAlergia
* C58, C95 The distributions of a state fill its first rows whatever their actions: when a state does not try all the actions, transitions are attributed to the wrong action and a training trace can get probability 0 (`C58_refuted`, `C95_refuted`).
* C59 Merging drops the frequencies of the merged state when the other one already has the transition (line 350 is commented out): 1/2 instead of 2/3 (`C59_refuted`).
* C95 Only the alphabetically first initial observation gets a state (`C95_initial_refuted`).
* C96 For traces starting with 'init' the result has two states 'init' with initial probability 1/2 each (`C96_refuted`, for every such set).
* C97 `output_file_prism` always raises AttributeError (`self.h` does not exist).
* C98 An observation seen from only one of two states is not compared: states with disjoint futures are merged (`C98_refuted`).

Files
* C65 A model whose name contains a newline is saved into a file that cannot be loaded. The load functions of MC, CTMC and MDP do not use the saved initial distribution: after a change of labels the loaded model starts elsewhere.
* C66 Labels and names are written unchecked: a label that is not a Prism identifier gives a file Prism cannot read (`C66_label_refuted`).
* C67 `savePrism` raises IndexError on every model with several initial states.
* C85 `loadCTMC`, `loadHMM` and `loadGoHMM` only print a message about a wrong first line and go on: an MC file loads as a CTMC.
* Not modelled: code points above 255; `repr` of numpy scalars (inside plain lists they print as Python floats for numpy < 2 only); nan and inf, which `repr` writes and `literal_eval` rejects.

Preparation of the training set
* C47 When no trace contains 'init', 'init' is put in front of every trace, timed and MDP traces included: dwell times and labels, or actions and labels, swap positions. When one trace contains 'init', the others are left without. A list of MDP traces is never recognised as such (a set is compared with a dict).
* C48 A Set without 'init' given to `fit` is changed in place.
* C49 Of the unusable pairs of set and model types only four are rejected, with RuntimeError instead of TypeError.
* C54 `toMC` normalises the matrix of the CTMC in place: afterwards every exit rate of the CTMC is 1.

Parametric CTMCs
* C50 `instantiate` checks the rates under the OLD values: values that make a rate negative are accepted. From then on every call of `instantiate` is refused, even with valid values, and `randomInstantiation` does not terminate.
* C87 `tau` is inf in an absorbing state for every destination and every observation. A timed trace of probability 0 makes the log-likelihood raise ValueError (the CTMC class ignores it).
* C88 From an absorbing state `next` moves to state 0 after an infinite time.
* C89 `createPCTMC` uses ids as row numbers: with ids other than 0..n-1 the rows collide with the 'init' row. Its labelling and transition arguments are extended in place, so the same labelling cannot be used twice. The transition matrix has 16-bit entries: the proof needs fewer than 65535 transitions. A labelling that is too long is announced as a warning and then raises ValueError (`C89_createPCTMC_refused`).
* C90 The indexes of a parameter keep transitions whose rate was overwritten.
* C91 Without bounds the values are drawn between 0.01 and 0.3, not 0.1 and 5 as documented.
* Simplifications: rates are polynomials (sympify's canonical forms, division and functions are not modelled; `==` is structural); parameters are strings without assumptions.

Composition
* C52 With a second CTMC of at least two states more than the first, `synchronousCompositionCTMCs` always raises ValueError (the ids of the second model are computed from the labels of the first). A pair of states that both have a self loop gets the undeclared parameters `p{i}_{i}` and `q{j}_{j}` (declared names have one more underscore): its self loop never has a value. References are 8-bit: with more than 256 expressions later rates silently refer to earlier expressions (numpy < 2; numpy 2 raises OverflowError). When 'init' is not the last label, states are lost.
* C53 The list of synchronous transitions is a default argument shared by all PCTMCs made without one, and composing three or more models appends to it: later compositions of unrelated models get synchronous transitions (or raise ValueError).
* C92 The parameter values of the second model are dropped (the composition of two instantiated models is not instantiated). A self loop of the first model is overwritten by the zero self loop of the second. Only the synchronous transitions of the last step are added, so with three models those between the first two are lost. A second model with two states more raises ValueError, as in C52.

Active learning of MDPs
* C63 In a state of the hypothesis never used so far all weights are nan and the first action is always chosen: it is not explored.
* C64 The learning rate has no effect: `old_h` and `self.h` are the same object when they are merged, and the fit changes it in place. With any rate except 0 the previous knowledge is lost, the model is the one learned from the last sample. The dynamic rate exceeds 1 when the first sample is larger than the training set.
* C101 With one process (always the case on Windows and macOS) the strategy compares a matrix with False and raises ValueError. When the hypothesis can produce no training trace, the strategy is the number 0 and the scheduler raises TypeError.
* C103 An action that is the only one used so far in all believed states is never proposed: when it is the only available one, `run` loops forever (`C103_sampling_never_ends_refuted`, with the system itself as hypothesis).
* C104 The Set given by the caller is extended in place by every sample.
* C105 With the default arguments and no stormpy, `self.verbose` is read before it is set: AttributeError. A list of traces raises AttributeError after the initial fit.
* `max_it` is not used in the active iterations.
* Not modelled: the preparation of the set (it changes nothing when the set contains the observation 'init'), files and printing. Random draws are explicit; a run that uses up its draws has no result.

Learning of parametric CTMCs
* C111 `_bw` reads `self.verbose`, which only `fit` sets: on a new BW object `fit_parameters` always raises AttributeError, after it has removed states from the caller's model. The repository's own test and example call it this way.
* C112 `fit` with a parametric CTMC never returns: by default `fixed_parameters` is False and is indexed (TypeError); for untimed traces `_computeAlphas_matrix` is called with two arguments; for timed traces the alpha matrix has one column more than the beta matrix (ValueError; with two observations numpy broadcasts instead). createPCTMC appends every numeric rate but stores the index of the first equal one: the others are unused, and `where(...)[0]` raises IndexError in the update of the constants (PConst.v). A number used by several transitions is re-estimated from the first one only. When traces can return to the source state, the broadcast also adds a wrong term to the time and the moves (PConst2.v). Otherwise a round is a step of Expectation-Maximization on the numbers (PConst3.v, PConst4.v with all parameters fixed).
* C113 `fit_nonInstantiatedParameters` puts all parameters in the list to update: those with a value are changed as well.
* C114 A constant added to a parameter is ignored by the update, which then decreases the likelihood.
* C115 The root kept is the maximum of complex numbers (order: real part, then imaginary part). From degree 4 on it can be a non-real root: the round raises TypeError.
* C116 Removing the states which are not observed lowers the exit rates of the states next to them. The values are learned for another chain: the likelihood changes. A parameter which only occurs there raises ValueError (`min` of an empty list).
* The round asks the user with `input()` in some branches when a parameter has no observed use; without a terminal this is EOFError, which is what the model returns.
* C117 `_preparation` stores methods in the object and never sets them back: after an MDP or a timed CTMC the object cannot learn an MC, an HMM, a GoHMM or an untimed CTMC any more (TypeError or AttributeError), and after a parametric CTMC it can learn nothing else (AttributeError).
* C118 `_splitTime` reads the second element of a trace: a trace with one observation raises IndexError when a CTMC is learned.

Files of parametric CTMCs
* C119 `save` does not write the synchronous transitions: a loaded model does not compose as the saved one did. The rates are written with `str`, which for sympy floats keeps 15 digits: the rate read back is what sympify makes of this text (hypothesis `reread` of the theorems; sympy itself is not modelled).
* C120 The variable of the Prism file ranges over one value more than there are states (`[0..nb_states]`; the other models use `nb_states-1`). With several initial states savePrism raises IndexError.

Conversions with stormpy (stormpy itself is not modelled; its interface is the record `sparse`)
* C121 A state with init and another label gets an additional initial state, so every trace of the jajapy model has one more observation, and a CTMC one more sojourn (rate 1). With two such states two labels init are appended but one state: ValueError. Labels are joined with `_`: {a_b} and {a, b} become the same label; no label and the label empty as well.
* C123 A label deadlock is lost on the way back (empty). The name is lost.
* C124 stormpy's matrix of a CTMC holds rates. The default `from_prism=False` multiplies them by the exit rate; the export gives stormpy the jump probabilities with `rate_transitions=True`. The two errors cancel in a round trip.
* C125 The list of actions is `list(set(names))`, while the matrix uses the ids of stormpy: with string hashing the names are attached to actions at random. When a name given by the user equals the default name of another action, or two given names are equal: IndexError.
* C126 Only the choices of state 0 get the name of their action.
* The matrix of a parametric CTMC is of type uint16: from 65536 expressions on the indexes wrap (guard of C128).

Learning from a number of states
* C129, C131 The default of `fit` builds CTMCs without self loops (`self_loop` is None). With at most one state per label such a CTMC cannot generate the same label twice in a row: one process raises, several processes ignore the trace.
* C130, C132 With `nb_states` smaller than the number of labels the labels beyond are dropped without a message, and with `random_initial_state=False` only traces which start with the first label of the (unordered) alphabet are possible: one process raises, several processes return a model in which training traces are impossible.
* C131 Timed traces without init are not accepted although label sequences are (the init put in front shifts labels and times, C47).
* C135 An empty list (or a Set whose type is not 0, 1, 3 or 4) given to `fit` with `nb_states` raises AttributeError on the missing hypothesis instead of a message about the training set.

Double precision
* C136 The forward probabilities are plain products, without scaling or logarithms, in float64 (for MCs, HMMs and MDPs). A trace of a fair coin has probability 0 from 1075 tosses on. `logLikelihood` then leaves the trace out (for a single trace it returns 0, the value of a certain trace). `fit` raises TypeError with one process; with several processes it ignores the trace without a message.
* C136 A row of seven times 1/7 is accepted, but its cumulated sum in float64 is 1 - 2^-52. For the largest value of `random()`, 1 - 2^-53, `resolveRandom` (so `run`, `next`, `generateSet`) raises IndexError.

Printing
* C138 Transitions, observations and rates of probability at most 0.0001 are not shown, and `initial state` probabilities under 0.001 neither: two different models can print the same text, and the probabilities shown need not sum to 1. Labels are printed as they are: one with an end of line can show transitions that do not exist.

Inspection
* C140 `MDP.getActions` does not check the id: -2 gives the actions of the last state but one, although ids of the other accessors must not be negative.
* C17 `getLabel` of a parametric model converts the id with `int` only to check it: `getLabel('x')` raises ValueError (not the TypeError of the message), `getLabel('1')` and `getLabel(1.0)` pass the check and then raise TypeError from the list. `GoHMM.mu` checks nothing: negative ids count from the end.

Sets
* C142 `Set([], t=0).addSet(s)` appends to an empty list with numpy, which gives floats: the counts become 3.0 instead of 3. They compare equal, but `to_list` raises TypeError and the file written by `save` raises ValueError in `loadSet` (`int('3.0')`).

Units
* C144 For Gaussian outputs a change of unit of the data (millimetres instead of metres) changes the learned model when some state has no expected visit: the update takes the square root of its old deviation, which is not a quantity in the same unit.
* C144 `output_epsilon` is compared with the difference of total log-likelihoods, so writing each trace twice needs a threshold twice as large for the same result.
* C145 A fixed rate of a CTMC in a state the traces never visit is doubled by each round although the likelihood stays the same: such a round is not idempotent and never converges.
* C146 With a dwell time of zero the expected time spent in a state may be zero although the state is left: the round then keeps the old rates, and the run stops at a model that is not stationary (the likelihood grows without bound with the rate).
* C147 `generateSet(..., timed=True)` on an MC or HMM passes True as `current`. Indexing numpy arrays by True returns the whole array, so an HMM starts in state 0 whatever its initial distribution, and an MC writes the label of state 1 and then moves from state 0: the traces may have probability 0.
* C148 Because of the doubling of C45, an endless run with a fixed rate in a state the traces never visit approaches no model at all: the rate is 2^k after k rounds.
* C149 Learning an MC from traces in which every state is visible does not return the observed frequencies after one round, only in the limit: `_bw` reads a trace as if one more, unobserved, move followed its last label, so every trace ending in a state pulls its row towards the old values.
* C150 Traces a model cannot emit are left out of its score but still counted: a model that says one of two traces is certain gets 0 on a set in which that trace has share 3/4, more than the model that generated the set.
* C151 In a state with a rate of 0, `CTMC.next` gives that rate the sample 1024: with probability exp(-1024 * exit rate) all other samples are later, and the simulated trace then makes a move of probability 0. Models with small rates (means of hours counted in seconds) meet this often. Times over 1024 are never simulated from such a state.
* C152 `CTMC.tau` divides by the exit rate. For a state that cannot be left this is 0/0, which is nan in numpy: 0 * nan is nan, so a single such state, even if it is never reached, makes `logLikelihood` of every set with a trace of two observations nan. Learning from untimed traces turns every rate of the model into nan in the first round, and the loop then runs for all `max_it` rounds, since a comparison with nan is false.
* C153 `PCTMC.logLikelihood` on untimed traces raises AttributeError on Linux for every non-empty set: `Model._computeAlphas` calls `self.b`, which `PCTMC` does not have (the three classes of `Base_MC` and both HMMs do).
* C153 On Windows and macOS the same call works, except that `PCTMC.tau` returns inf for a state that cannot be left: 0 * inf is nan, no trace counts, and the score is 0, the best possible one, for every set.
* C164 `loadSet` removes the last character of each line without checking that it is a newline. A set file that lost its final newline (an editor, a cut transfer) is loaded with a wrong last count: 12 becomes 1, without an error. A set file cut after a pair of lines is loaded as a smaller set. Model files in the same state raise ValueError, also when only the final newline is missing.
* C163 A file with negative rates is loaded as a CTMC: the constructor does not check the rates (C16).
* C92 When a synchronous transition is added where there already is a transition with a parameter (one of the two models stays in its state), `synchronousCompositionPCTMCs` raises ValueError: line 619 of PCTMC.py looks for a sympy symbol in the list of names (line 538 converts it to a string first). The earlier version of the model left this step out. C92_sync_on_parameter: under the other guards this is the only way to fail.
* C87 `PCTMC.logLikelihood` on an empty set of timed traces raises ZeroDivisionError (a CTMC returns -9999 there, C27).
