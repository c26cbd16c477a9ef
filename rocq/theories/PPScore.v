(** Theorems C153: scores of (parametric) CTMCs on untimed traces. *)
From Coq Require Import String ZArith Bool Reals List Lia Lra Permutation FunctionalExtensionality.
From Verif Require Import Num Py SNum LSum LTools MSet SSet MModels MLik MBW SBW SLik LFB LEM LBW LBWMC LLik LLik2 PLik PBWMC PBWCT PBWCTU SPath MPctmc SPctmc LPctmc PPctmc PPctmc2 MExt LExt LExt2 PExt PExt2 MPScore.
Import ListNotations.
Local Open Scope R_scope.

(** ** The single-process loop, in any arithmetic *)
Definition one_step {K} `{Num K} `{Trans K} n (tau : nat -> nat -> string -> K) ini (ll : K) (st : list string * Z) : K :=
  let p := nsum (fold_left (fstep n) (map (fun o ss s => tau ss s o) (fst st)) ini) in
  if nltb n0 p then nadd ll (nmul (nln p) (nofZ (snd st))) else ll.
Lemma oneproc_gen {K} `{Num K} `{Trans K} n tau (ini : list K) l : forall prev alpha ll,
  (match prev with None => exists k, alpha = initAlphaMatrix n ini k | Some p => alpha = bw_alphas n ini (map (fun o ss s => tau ss s o) p) end) ->
  oneproc_loop n tau l prev alpha ll = fold_left (one_step n tau ini) l ll.
Proof.
  induction l as [|[sq t] l IH]; intros prev alpha ll HI; [reflexivity|]. cbn [oneproc_loop fold_left].
  assert (E : updateAlphaMatrix n (map (fun o ss s => tau ss s o) sq) (match prev with None => O | Some p => common_prefix p sq end) alpha = bw_alphas n ini (map (fun o ss s => tau ss s o) sq)).
  { destruct prev as [p|]; [rewrite HI; apply (update_share n ini (fun o ss s => tau ss s o))|]. destruct HI as [k ->]. apply update_init. }
  rewrite E. rewrite IH by reflexivity. f_equal. unfold one_step. cbn [fst snd]. rewrite bw_alphas_snoc, last_last. reflexivity.
Qed.
Lemma oneproc_gen_set {K} `{Num K} `{Trans K} n tau (ini : list K) (s : tset (list string)) : length (times s) = length (seqs s) -> seqs s <> [] ->
  model_oneproc n tau ini s = Ok (ndiv (fold_left (one_step n tau ini) (combine (seqs (sort trace_eqb trace_leb s)) (times (sort trace_eqb trace_leb s))) n0)
    (nofZ (zsum (times (sort trace_eqb trace_leb s)))), sort trace_eqb trace_leb s).
Proof.
  intros L NE. destruct (sort_perm s L) as [P Ls]. unfold model_oneproc. set (s' := sort trace_eqb trace_leb s) in *. destruct (seqs s') as [|first rest] eqn:Es.
  { exfalso. apply NE. apply Permutation_map with (f := fst) in P. cbn in P. rewrite map_fst_combine in P by exact L. apply Permutation_sym, Permutation_nil in P. exact P. }
  rewrite (oneproc_gen n tau ini) by (exists (length first); reflexivity). reflexivity.
Qed.
Lemma x_one_step n tau tau' ini l : (forall o, fin_w n (fun i j => tau' i j o) (fun i j => tau i j o)) ->
  forall ll, fold_left (one_step n tau' (xvec ini)) l (XF ll) = XF (fold_left (one_step n tau ini) l ll).
Proof.
  intros HT. induction l as [|[sq t] l IH]; intros ll; [reflexivity|]. cbn [fold_left]. rewrite <- IH. f_equal. unfold one_step. cbn [fst snd].
  rewrite (xfold n _ (map (fun o ss s => tau ss s o) sq)).
  - rewrite xnsum. set (p := nsum _). change (nltb n0 (XF p)) with (nltb n0 p). destruct (nltb n0 p); reflexivity.
  - induction sq as [|o sq IHs]; constructor; [apply HT|exact IHs].
Qed.
Lemma zsum_sort (s : tset (list string)) : length (times s) = length (seqs s) -> zsum (times (sort trace_eqb trace_leb s)) = zsum (times s).
Proof.
  intros L. destruct (sort_perm s L) as [P Ls]. apply Permutation_map with (f := snd) in P. rewrite !map_snd_combine in P by (auto; lia). symmetry. apply zsum_perm. exact P.
Qed.
Lemma usable_zsum {A} (s : tset (list A)) : usable s -> seqs s <> [] -> zsum (times s) <> 0%Z.
Proof.
  intros (L & P & _) NE. unfold pos_set in P. destruct (seqs s) as [|x xs]; [congruence|]. destruct (times s) as [|t ts]; [discriminate|]. cbn [zsum].
  assert (G : forall l, (forall z, In z l -> (1 <= z)%Z) -> (0 <= zsum l)%Z). { induction l as [|z l IH]; intros H; cbn; [lia|]. specialize (IH (fun y I => H y (or_intror I))). specialize (H z (or_introl eq_refl)). lia. }
  specialize (G ts (fun z I => P z (or_intror I))). specialize (P t (or_introl eq_refl)). cbn. lia.
Qed.
Definition xscore1 {A} (r : res (R * A)) : res (xr * A) := match r with Ok (x, a) => Ok (XF x, a) | Err e => Err e end.
Lemma x_oneproc n tau tau' ini (s : tset (list string)) : length (times s) = length (seqs s) -> seqs s <> [] -> zsum (times s) <> 0%Z ->
  (forall o, fin_w n (fun i j => tau' i j o) (fun i j => tau i j o)) -> model_oneproc n tau' (xvec ini) s = xscore1 (model_oneproc n tau ini s).
Proof.
  intros L NE Z HT. rewrite !oneproc_gen_set by assumption. cbn [xscore1]. change (@n0 xr XNum) with (XF 0). rewrite (x_one_step n tau tau' ini _ HT). f_equal. f_equal.
  change (@nofZ xr XNum ?z) with (XF (IZR z)). rewrite zsum_sort by exact L. rewrite xdiv_fin; [reflexivity|]. apply not_0_IZR. exact Z.
Qed.

(** The two versions of the score of a CTMC agree: no transition of the chain of
    jumps is lost by the additional move. *)
Lemma ct_move (m : ctmc R) (tr : list string) : wf_ctmc m -> (forall st, (st < ct_n m)%nat -> exit_rate m st <> 0) -> tr <> [] ->
  tot (ct_n m) (vget (ct_ini m)) (map (fun o ss s => ct_tau m ss s o) tr) (fun _ => 1) = ct_trace_prob m tr.
Proof.
  intros W NZ NE. unfold ct_trace_prob. rewrite <- (trace_prob_move_eq (ct_n m)); [|exact NE|intros st Hs; apply jump_row_sum; auto].
  rewrite trace_prob_move_tot. f_equal. apply map_ext. intros o. extensionality s. extensionality s'. unfold ct_tau, jump. rewrite ct_l_eq, ct_e_exit. nR. unfold Rdiv. ring.
Qed.
Lemma ct_one (m : ctmc R) (s : tset (list string)) : wf_ctmc m -> (forall st, (st < ct_n m)%nat -> exit_rate m st <> 0) -> usable s -> seqs s <> [] ->
  ct_logLikelihood_1 m s = Ok (avg_ll (ct_trace_prob m) (weighted s), sort trace_eqb trace_leb s).
Proof.
  intros W NZ U NE. unfold ct_logLikelihood_1. rewrite oneproc_spec by (try apply W; try apply U; exact NE). f_equal. f_equal.
  apply avg_ll_ext. intros x t I. apply in_combine_l in I. apply ct_move; [exact W|exact NZ|intros ->; apply (proj2 (proj2 U)); exact I].
Qed.
Theorem C153_ctmc_platform_independent_partial : forall (m : ctmc R) (s : tset (list string)), wf_ctmc m ->
  (forall st, (st < ct_n m)%nat -> exit_rate m st <> 0) -> usable s -> seqs s <> [] ->
  exists v s', ct_logLikelihood (x_ctmc m) s = Ok (XF v) /\ ct_logLikelihood_1 (x_ctmc m) s = Ok (XF v, s') /\
    v = avg_ll (ct_trace_prob m) (weighted s) /\ Permutation (weighted s) (weighted s').
Proof.
  intros m s W NZ U NE. pose proof (usable_zsum s U NE) as Z. exists (avg_ll (ct_trace_prob m) (weighted s)), (sort trace_eqb trace_leb s). split; [|split; [|split]].
  - rewrite C152_ctmc_score_finite by assumption. rewrite C27_ctmc_logLikelihood by assumption. reflexivity.
  - unfold ct_logLikelihood_1. assert (Ln : ct_n (x_ctmc m) = ct_n m) by apply xmat_length. rewrite Ln.
    change (ct_ini (x_ctmc m)) with (xvec (ct_ini m)). rewrite (x_oneproc _ (ct_tau m)); try assumption; [|apply U|].
    + change (model_oneproc (ct_n m) (ct_tau m) (ct_ini m) s) with (ct_logLikelihood_1 m s). rewrite ct_one by assumption. reflexivity.
    + intros o i j Hi _. apply x_ct_tau. exact (NZ i Hi).
  - reflexivity.
  - apply (sort_perm s); apply U.
Qed.
Print Assumptions C153_ctmc_platform_independent_partial.

(** ** Parametric CTMCs: several processes *)

Lemma mmap_seq_ok {B} (f : nat -> res B) n : (forall i, (i < n)%nat -> exists b, f i = Ok b) -> exists l, mmap f (seq 0 n) = Ok l /\ length l = n.
Proof.
  intros H. assert (G : forall k a, (a + k <= n)%nat -> exists l, mmap f (seq a k) = Ok l /\ length l = k).
  { induction k as [|k IH]; intros a Ha; [exists []; split; reflexivity|]. cbn [seq mmap]. destruct (H a ltac:(lia)) as [b ->]. cbn [bind]. destruct (IH (S a) ltac:(lia)) as (l & -> & Ll).
    cbn [bind]. eexists. split; [reflexivity|]. cbn. lia. }
  apply G. lia.
Qed.
Lemma real_tau_num (m : pctmc R) (c : ctmc R) : wf_pctmc m -> realises m c -> forall ss s o, (ss < pc_n m)%nat -> (s < pc_n m)%nat -> exists t, pc_tau m ss s o = Ok t /\ t <> PyNone.
Proof.
  intros W RE ss s o L L'. destruct (C87_accessors m c W RE ss s o L L') as (_ & _ & A & _ & _). destruct (Req_EM_T (exit_rate c ss) 0) as [E|E].
  - rewrite (C87_tau_refuted m c W RE ss s o L E). eexists; split; [reflexivity|discriminate].
  - destruct (A E) as (_ & ->). eexists; split; [reflexivity|discriminate].
Qed.
Lemma real_fstep (m : pctmc R) (c : ctmc R) : wf_pctmc m -> realises m c -> forall prev o, exists nxt, pc_fstep m prev o = Ok nxt /\ length nxt = pc_n m.
Proof.
  intros W RE prev o. apply mmap_seq_ok. intros s Hs. unfold pc_taus.
  destruct (mmap_seq_ok (fun ss => do t <- pc_tau m ss s o; match t with Fin x => Ok (XF x) | Inf => Ok XP | PyNone => Err TypeError end) (pc_n m)) as (l & -> & _); [|eexists; reflexivity].
  intros ss Hss. destruct (real_tau_num m c W RE ss s o Hss Hs) as (t & -> & N). cbn [bind]. destruct t; [eexists; reflexivity|eexists; reflexivity|congruence].
Qed.

(** C153 for parametric CTMCs, several processes: refuted, no set of untimed
    traces can be scored.  [realises m c]: every transition has its value. *)
Theorem C153_pctmc_untimed_refuted : forall (m : pctmc R) (c : ctmc R) (s : tset (list string)),
  wf_pctmc m -> (0 < pc_n m)%nat -> realises m c -> inst_model m = true -> length (times s) = length (seqs s) -> seqs s <> [] ->
  pc_logLikelihood m s = Err AttributeError.
Proof.
  intros m c s W Hn RE IM L NE. unfold pc_logLikelihood. rewrite IM. cbn [negb]. destruct (seqs s) as [|tr trs]; [congruence|]. destruct (times s) as [|t ts]; [discriminate|]. cbn [combine mmap fst].
  assert (E : pc_computeAlphas m tr = Err AttributeError).
  { unfold pc_computeAlphas.
    assert (F : forall l prev, (0 < length prev)%nat -> exists x xs, mfold (pc_fstep m) l prev = Ok (x :: xs)).
    { induction l as [|o l IH]; intros prev Hp; [destruct prev as [|x xs]; [cbn in Hp; lia|exists x, xs; reflexivity]|]. cbn [mfold]. destruct (real_fstep m c W RE prev o) as (nxt & -> & Ln). cbn [bind]. apply IH. lia. }
    destruct (F (removelast tr) (xvec (pc_ini m))) as (x & xs & ->); [|reflexivity]. rewrite xvec_length. destruct W as (_ & _ & Li & _). lia. }
  rewrite E. reflexivity.
Qed.
Print Assumptions C153_pctmc_untimed_refuted.
(** Missing values are refused, and the empty set has score 0. *)
Theorem C153_pctmc_not_instantiated : forall (m : pctmc R) (s : tset (list string)) p, In p (pc_par m) -> parameterValue m p = None ->
  pc_logLikelihood m s = Err ValueError /\ pc_logLikelihood_1 m s = Err ValueError.
Proof.
  intros m s p I N. assert (IM : inst_model m = false).
  { unfold inst_model. destruct (forallb (inst_param m) (pc_par m)) eqn:E; [|reflexivity]. rewrite forallb_forall in E. specialize (E p I). unfold inst_param, parameterValue in *. rewrite N in E. discriminate. }
  unfold pc_logLikelihood, pc_logLikelihood_1. rewrite IM. split; reflexivity.
Qed.
Print Assumptions C153_pctmc_not_instantiated.
Theorem C153_pctmc_empty_set : forall (m : pctmc R) (s : tset (list string)), inst_model m = true -> seqs s = [] -> pc_logLikelihood m s = Ok (XF 0).
Proof. intros m s IM E. unfold pc_logLikelihood. rewrite IM, E. cbn. destruct (Req_EM_T 0 0); [|lra]. unfold Reqb. destruct (Req_EM_T 0 0); [reflexivity|lra]. Qed.
Print Assumptions C153_pctmc_empty_set.

(** ** Parametric CTMCs: one process *)

Lemma real_all_rates (m : pctmc R) (c : ctmc R) : realises m c -> all_rates m = true.
Proof. intros RE. apply forallb_forall. intros s I. apply in_seq in I. rewrite (real_det m c RE) by lia. reflexivity. Qed.
(** If every state can be left, the score is the one of the CTMC with the values
    of the parameters. *)
Theorem C153_pctmc_single_process : forall (m : pctmc R) (c : ctmc R) (s : tset (list string)),
  wf_pctmc m -> realises m c -> inst_model m = true -> (forall st, (st < pc_n m)%nat -> exit_rate c st <> 0) ->
  usable s -> seqs s <> [] ->
  exists s', pc_logLikelihood_1 m s = Ok (XF (avg_ll (ct_trace_prob c) (weighted s)), s') /\ Permutation (weighted s) (weighted s').
Proof.
  intros m c s W RE IM NZ U NE. pose proof (usable_zsum s U NE) as Z. exists (sort trace_eqb trace_leb s). split; [|apply (sort_perm s); apply U].
  assert (Ln : ct_n c = pc_n m) by apply RE. unfold pc_logLikelihood_1. rewrite IM, (real_all_rates m c RE). cbn [negb andb].
  rewrite (x_oneproc _ (ct_tau c)); try assumption; [|apply U|].
  - replace (model_oneproc (pc_n m) (ct_tau c) (pc_ini m) s) with (ct_logLikelihood_1 c s) by (unfold ct_logLikelihood_1; rewrite Ln; replace (ct_ini c) with (pc_ini m) by (symmetry; apply RE); reflexivity).
    rewrite ct_one; [reflexivity|exact (real_wf m c W RE)|rewrite Ln; exact NZ|exact U|exact NE].
  - intros o i j Hi Hj. unfold pc_tau_x. destruct (C87_accessors m c W RE i j o Hi Hj) as (_ & _ & A & _). destruct (A (NZ i Hi)) as (_ & ->). f_equal.
    unfold ct_tau, jump. rewrite ct_l_eq. change (ct_e c i) with (exit_rate c i). unfold is_label. nR. destruct (String.eqb _ o); unfold Rdiv; ring.
Qed.
Print Assumptions C153_pctmc_single_process.

(** Refuted when a state which cannot be left has initial probability 0: no trace
    counts, and every set has score 0. *)
Theorem C153_pctmc_single_process_refuted : forall (m : pctmc R) (c : ctmc R) (s : tset (list string)) s0,
  wf_pctmc m -> realises m c -> inst_model m = true -> (s0 < pc_n m)%nat -> exit_rate c s0 = 0 -> vecR (pc_ini m) s0 = 0 ->
  length (times s) = length (seqs s) -> ~ In [] (seqs s) -> seqs s <> [] -> zsum (times s) <> 0%Z ->
  exists s', pc_logLikelihood_1 m s = Ok (XF 0, s').
Proof.
  intros m c s s0 W RE IM H0 E0 I0 L NI NE Z. eexists. unfold pc_logLikelihood_1. rewrite IM, (real_all_rates m c RE). cbn [negb andb].
  rewrite oneproc_gen_set by assumption.
  assert (T0 : forall ss o, pc_tau_x m s0 ss o = XP) by (intros ss o; unfold pc_tau_x; rewrite (C87_tau_refuted m c W RE s0 ss o H0 E0); reflexivity).
  assert (Li : length (pc_ini m) = pc_n m) by apply W.
  assert (DOT : forall prev w, length prev = pc_n m -> nth s0 prev XN = XF 0 \/ nth s0 prev XN = XN -> (forall ss, (ss < pc_n m)%nat -> w s0 ss = XP) -> fstep (pc_n m) prev w = repeat XN (pc_n m)).
  { intros prev w Lp Hp Hw. unfold fstep. rewrite (map_seq_ext (pc_n m) _ (fun _ => XN)); [apply build_const|]. intros ss Hs. unfold ndot. apply xn_sum.
    assert (B : In (nmul (nth s0 prev XN) (nth s0 (vbuild (pc_n m) (fun ss0 => w ss0 ss)) XN)) (zipwith nmul prev (vbuild (pc_n m) (fun ss0 => w ss0 ss)))) by (apply zip_nth_in; [lia|rewrite vbuild_length; lia]).
    rewrite vbuild_nth in B by exact H0. rewrite Hw in B by exact Hs. destruct Hp as [Hp|Hp]; rewrite Hp in B; [|exact B]. cbn in B. unfold signed in B. destruct (Rlt_dec 0 0); [lra|]. destruct (Rlt_dec 0 0); [lra|]. exact B. }
  assert (FLD : forall l prev, length prev = pc_n m -> nth s0 prev XN = XF 0 \/ nth s0 prev XN = XN -> l <> [] ->
    fold_left (fstep (pc_n m)) (map (fun o ss s => pc_tau_x m ss s o) l) prev = repeat XN (pc_n m)).
  { induction l as [|o l IH]; intros prev Lp Hp Nl; [congruence|]. cbn [map fold_left]. rewrite DOT by (auto; intros; apply T0). destruct l as [|o' l]; [reflexivity|].
    apply IH; [apply repeat_length| |discriminate]. right. clear. generalize (pc_n m). intros k. revert s0. induction k; intros [|i]; cbn; auto. }
  assert (STEP : forall l, (forall tr t, In (tr, t) l -> tr <> []) -> fold_left (one_step (pc_n m) (pc_tau_x m) (xvec (pc_ini m))) l (XF 0) = XF 0).
  { induction l as [|[tr t] l IH]; intros Hl; [reflexivity|]. cbn [fold_left]. unfold one_step at 2. cbn [fst snd]. rewrite FLD.
    - assert (P : nsum (repeat XN (pc_n m)) = XN) by (apply xn_sum; destruct (pc_n m); [lia|left; reflexivity]). rewrite P. cbn [nltb nleb XNum xleb andb n0]. apply IH. intros; eapply Hl; right; eassumption.
    - rewrite xvec_length. exact Li.
    - left. unfold xvec. rewrite (nth_indep _ XN (XF 0)) by (rewrite map_length; lia). rewrite (map_nth XF). unfold vecR in I0. rewrite I0. reflexivity.
    - apply (Hl tr t). left. reflexivity. }
  change (@n0 xr XNum) with (XF 0). rewrite STEP.
  - change (@nofZ xr XNum ?z) with (XF (IZR z)). rewrite zsum_sort by exact L. rewrite xdiv_fin by (apply not_0_IZR; exact Z). unfold Rdiv. rewrite Rmult_0_l. reflexivity.
  - intros tr t I ->. destruct (sort_perm s L) as [P _]. apply (Permutation_in _ (Permutation_sym P)) in I. apply in_combine_l in I. exact (NI I).
Qed.
Print Assumptions C153_pctmc_single_process_refuted.

(** Non-vacuity: the parametric CTMC of PPctmc2.v, with x = 3; and one
    with a third state which cannot be left, under which the traces [init, a] have
    probability 1/2. *)
Definition stop_inst : pctmc R := mkPC [[0; 1; 1]; [0; 0; 1]; [0; 0; 0]]%nat ["init"; "a"; "b"]%string [EConst 0; EVar "x"] [("x"%string, 3)]
  [[(0, 1); (0, 2); (1, 2)]%Z] ["x"%string] [1; 0; 0] "stop".
Definition stop_real : ctmc R := mkCTMC [[0; 3; 3]; [0; 0; 3]; [0; 0; 0]] ["init"; "a"; "b"]%string [1; 0; 0] "stop".
Definition one_trace : tset (list string) := mkset [["init"; "a"]]%string [5]%Z (Some 0%Z).
Definition two_traces : tset (list string) := mkset [["init"; "a"]; ["init"; "a"; "init"]]%string [1; 2]%Z (Some 0%Z).
Example C153_instance : pc_logLikelihood ex_inst two_traces = Err AttributeError /\
  (exists s', pc_logLikelihood_1 ex_inst two_traces = Ok (XF (avg_ll (ct_trace_prob ex_real) (weighted two_traces)), s')) /\
  wf_ctmc ex_real /\ usable two_traces /\ (forall st, (st < ct_n ex_real)%nat -> exit_rate ex_real st <> 0) /\
  realises stop_inst stop_real /\ (exists s', pc_logLikelihood_1 stop_inst one_trace = Ok (XF 0, s')) /\ avg_ll (ct_trace_prob stop_real) (weighted one_trace) = ln (1 / 2) /\ pc_logLikelihood ex_pc two_traces = Err ValueError.
Proof.
  assert (IM : inst_model ex_inst = true) by reflexivity.
  assert (U : usable two_traces) by (repeat split; [intros t [<-|[<-|[]]]; lia|intros [H|[H|[]]]; discriminate]).
  assert (NE : seqs two_traces <> []) by discriminate.
  assert (NZ : forall st, (st < 2)%nat -> exit_rate ex_real st <> 0) by (intros [|[|st]] H; try lia; unfold exit_rate; cbn; lra).
  split; [apply (C153_pctmc_untimed_refuted ex_inst ex_real); auto; [exact ex_inst_wf|cbn; lia|exact ex_realises]|].
  split. { destruct (C153_pctmc_single_process ex_inst ex_real two_traces ex_inst_wf ex_realises IM NZ U NE) as (s' & E & _). exists s'. exact E. }
  split; [exact (real_wf ex_inst ex_real ex_inst_wf ex_realises)|]. split; [exact U|]. split; [exact NZ|].
  { assert (RS : realises stop_inst stop_real).
    { split; [reflexivity|split; [reflexivity|split; [reflexivity|split; [intros r [<-|[<-|[<-|[]]]]; reflexivity|]]]].
      intros [|[|[|i]]] [|[|[|j]]] Hi Hj; cbn in Hi, Hj; try lia; exists (fun _ => 3); (split; [intros x O; cbn in O; try contradiction; subst x; reflexivity|reflexivity]). }
    split; [exact RS|]. split; [|split; [|apply (C153_pctmc_not_instantiated ex_pc two_traces "x"%string); [left|]; reflexivity]].
    - apply (C153_pctmc_single_process_refuted stop_inst stop_real one_trace 2); auto; try reflexivity; try discriminate.
      + split; [|split; [reflexivity|split; [reflexivity|split; [reflexivity|]]]].
        * intros r [<-|[<-|[<-|[]]]]; (split; [reflexivity|]); intros k [<-|[<-|[<-|[]]]]; cbn; lia.
        * intros x [<-|[<-|[<-|[]]]]; lra.
      + unfold exit_rate; cbn; lra.
      + intros [H|[]]; discriminate.
    - unfold avg_ll, set_ll, sumL, weighted. cbn [combine seqs times one_trace map fold_right fst snd].
      assert (P : ct_trace_prob stop_real ["init"; "a"]%string = 1 / 2).
      { unfold ct_trace_prob, trace_prob, paths. cbn [length repeat map Nat.sub]. unfold sumL. cbn. unfold jump, exit_rate, is_label. cbn. unfold matR, vecR. cbn. lra. }
      rewrite P. destruct (Rlt_dec 0 (1 / 2)); [|lra]. cbn. lra. }
Qed.
