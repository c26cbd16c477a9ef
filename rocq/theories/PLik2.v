(** Sets that hold the empty trace, and empty sets: C29. *)
From Coq Require Import String ZArith Bool Reals List Lia Lra Permutation.
From Verif Require Import Num Py SNum LSum MSet SSet LSet MModels MLik SBW SLik LLik LLik2 PLik.
Import ListNotations.
Local Open Scope R_scope.

Lemma mmap_err {A B} (f : A -> res B) e l x : (forall y, In y l -> (exists z, f y = Ok z) \/ f y = Err e) -> In x l -> f x = Err e -> mmap f l = Err e.
Proof.
  induction l as [|y l IH]; intros H I E; [destruct I|]. cbn [mmap]. destruct (H y (in_eq _ _)) as [[z Ez]|Ez]; rewrite Ez; cbn [bind]; [|reflexivity].
  destruct I as [->|I]; [congruence|]. rewrite IH; [reflexivity| |exact I|exact E]. intros w J. apply H. right; exact J.
Qed.

Lemma oneproc_empty_trace (m : mdp R) (s : tset (list string)) l : (forall x, In x l -> In x (seqs s)) -> In [] l ->
  forall prev alpha ll, mdp_oneproc_loop m s l prev alpha ll = Err IndexError.
Proof.
  induction l as [|tr l IH]; intros Hin I prev alpha ll; [destruct I|]. cbn [mdp_oneproc_loop].
  destruct (index_of_In trace_eqb tr (seqs s) (lex_eqb_decides String.eqb string_eqb_decides)) as [i [Ei Ni]]; [apply Hin; left; reflexivity|]. rewrite Ei.
  destruct (rev tr) as [|lst r] eqn:Er; [reflexivity|]. apply IH; [intros x J; apply Hin; right; exact J|].
  destruct I as [->|I]; [discriminate Er|exact I].
Qed.

(** The empty trace: both versions of the MDP's likelihood raise IndexError, and
    the many-process version of the other classes does. *)
Theorem C29_empty_trace : forall (s : tset (list string)), length (times s) = length (seqs s) -> In [] (seqs s) ->
  (forall m : mdp R, mdp_logLikelihood m s = Err IndexError /\ mdp_oneproc m s = Err IndexError) /\
  (forall m : mc R, mc_logLikelihood m s = Err IndexError) /\
  (forall m : hmm R, hmm_logLikelihood m s = Err IndexError).
Proof.
  intros s L I. apply (In_nth _ _ []) in I as (i & Hi & Ei).
  assert (IC : In ([], nth i (times s) 0%Z) (combine (seqs s) (times s))).
  { rewrite <- Ei, <- combine_nth by (symmetry; exact L). apply nth_In. rewrite combine_length, L, Nat.min_id. exact Hi. }
  assert (I : In [] (seqs s)) by (rewrite <- Ei; apply nth_In, Hi).
  assert (G : forall n tau b ini, model_multiproc (K:=R) n tau b ini s = Err IndexError).
  { intros n tau b ini. unfold model_multiproc. erewrite mmap_err; [reflexivity| |exact IC|reflexivity].
    intros [tr t] _. unfold model_computeAlphas, model_prob. cbn [fst snd]. destruct (rev tr); cbn [bind]; [right; reflexivity|left; eauto]. }
  split; [|split; intros m; apply G]. intros m. split.
  - unfold mdp_logLikelihood. erewrite mmap_err; [reflexivity| |exact IC|reflexivity].
    intros [tr t] _. unfold mdp_computeAlphas, mdp_prob. cbn [fst snd]. destruct (rev tr); cbn [bind]; [right; reflexivity|left; eauto].
  - unfold mdp_oneproc. set (s0 := mkset _ _ _). destruct (sort_perm s0) as [P Ls]; [cbn; apply map_length|].
    assert (Pf : Permutation (seqs s) (seqs (sort trace_eqb trace_leb s0))).
    { apply Permutation_map with (f := fst) in P. rewrite !map_fst_combine in P by (auto; cbn; apply map_length). exact P. }
    destruct (seqs (sort trace_eqb trace_leb s0)) as [|first rest] eqn:Es; [apply Permutation_sym, Permutation_nil in Pf; rewrite Pf in I; destruct I|].
    rewrite oneproc_empty_trace; [reflexivity| |apply (Permutation_in _ Pf), I]. intros x J. apply (Permutation_in _ (Permutation_sym Pf)), J.
Qed.
Print Assumptions C29_empty_trace.

(** The single-process version of chains and HMMs does not raise: the empty
    trace counts as one of probability the sum of the initial vector. *)
Theorem C29_empty_trace_refuted : forall (m : mc R) (s : tset (list string)), wf_mc m -> length (times s) = length (seqs s) -> In [] (seqs s) ->
  mc_logLikelihood m s = Err IndexError /\ exists v s', mc_logLikelihood_1 m s = Ok (v, s').
Proof.
  intros m s W L I. split; [apply C29_empty_trace; assumption|]. unfold mc_logLikelihood_1. rewrite oneproc_spec; [eauto|apply W|exact L|]. intros E. rewrite E in I. exact I.
Qed.
Print Assumptions C29_empty_trace_refuted.

(** Sets without traces: 0 with several processes, IndexError with one. *)
Theorem C29_empty_set_refuted : forall (m : mc R) ty,
  mc_logLikelihood m (mkset [] [] ty) = Ok 0 /\ mc_logLikelihood_1 m (mkset [] [] ty) = Err IndexError.
Proof.
  intros m ty. split; [|reflexivity]. unfold mc_logLikelihood, model_multiproc. cbn. unfold Reqb. destruct (Req_EM_T 0 0); [reflexivity|congruence].
Qed.
Print Assumptions C29_empty_set_refuted.

Example C29_empty_instance : let s := mkset [["a"]; []; ["b"; "a"]]%string [2; 1; 3]%Z (Some 0%Z) in
  length (times s) = length (seqs s) /\ In [] (seqs s).
Proof. cbn. auto. Qed.
