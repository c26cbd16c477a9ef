(** Specification for C150: models that emit sequences of labels, their
    score of a set, and the entropy of a set of traces. *)
From Coq Require Import String ZArith Bool Reals List.
From Verif Require Import Num Py SNum SPath MSet MModels MLik SBW SLik.
Import ListNotations.
Local Open Scope R_scope.

(** A model whose traces are sequences of symbols: a Markov chain, a hidden
    Markov model or a CTMC observed without times. *)
Inductive source := FromMC (m : mc R) | FromHMM (m : hmm R) | FromCTMC (m : ctmc R).

(** Symbols the model can emit. *)
Definition symbols (x : source) : list string :=
  match x with FromMC m => mc_lab m | FromHMM m => hmm_alph m | FromCTMC m => ct_lab m end.

(** Probability that the model emits the trace. *)
Definition law (x : source) : list string -> R :=
  match x with FromMC m => mc_trace_prob m | FromHMM m => hmm_trace_prob m | FromCTMC m => ct_trace_prob m end.

(** Shapes agree, rows and initial vector are distributions (for a CTMC:
    rates are not negative and every state can be left). *)
Definition proper (x : source) : Prop :=
  match x with
  | FromMC m => wf_mc m /\ stochastic (mc_mat m) /\ rsum (mc_ini m) = 1
  | FromHMM m => wf_hmm m /\ stochastic (hmm_mat m) /\ stochastic (hmm_out m) /\ rsum (hmm_ini m) = 1
  | FromCTMC m => wf_ctmc m /\ nonneg_mat (ct_mat m) /\ (forall s, (s < ct_n m)%nat -> exit_rate m s <> 0) /\ rsum (ct_ini m) = 1
  end.

(** What [x.logLikelihood(s)] returns. *)
Definition score (x : source) (s : tset (list string)) : res R :=
  match x with FromMC m => mc_logLikelihood m s | FromHMM m => hmm_logLikelihood m s | FromCTMC m => ct_logLikelihood m s end.

(** Share of the multiplicity [t] in the set. *)
Definition share {A} (s : tset A) (t : Z) : R := IZR t / IZR (zsum (times s)).

(** Sum over the traces of share * log(share): minus the entropy of the set. *)
Definition neg_entropy {A} (s : tset A) : R :=
  sumL (combine (seqs s) (times s)) (fun xt => share s (snd xt) * ln (share s (snd xt))).
