(** What does not work in the learning of parametric CTMCs: C111-C114. *)
From Coq Require Import String ZArith Bool Reals List Lia Lra Psatz FunctionalExtensionality.
From Verif Require Import Num Py SNum SPath LSum MSet MModels MCtor MLik MBW MPctmc SPctmc LPctmc LCtor LFB LEM SBW SExp LBW LBWSet LBWMC SLik LLik LEMGen LBWMDP LBWCT LBWPath LLik2 LBWLoop PLik PBWMC PBWCT PBWCTU PPctmc LMM MPLearn SPLearn LPLearn LPLearn2 LPLearn3 LPLearn4 LPLearn5 LPLearn6 PPLearn PPLearn2.
Import ListNotations.
Local Open Scope R_scope.

(** ** C111: on a new BW object fit_parameters always raises *)
Theorem C111_fit_parameters_new_object_refuted : forall (maxroot : list R -> res R) (ts : traces R) (m : pctmc R) (to_update : list string) (eps : R) (max_it : nat) rnd,
  (forall result m', fit_parameters fresh maxroot ts m to_update eps max_it rnd <> Some (Ok result, m')) /\
  (forall result m', fit_nonInstantiatedParameters fresh maxroot ts m eps max_it rnd <> Some (Ok result, m')).
Proof.
  intros maxroot ts m tu eps mx rnd.
  assert (G : forall tu result m', fit_parameters fresh maxroot ts m tu eps mx rnd <> Some (Ok result, m')).
  { clear tu. intros tu result m' E. unfold fit_parameters in E. destruct (negb _) in E; [discriminate|]. destruct (rnd _); [|discriminate].
    destruct (sortParameters _ _); discriminate. }
  split; intros; apply G.
Qed.
Print Assumptions C111_fit_parameters_new_object_refuted.
(** With valid arguments the exception is AttributeError, and the model of the
    caller has lost its states whose labels are not in the traces. *)
Theorem C111_fit_parameters_new_object : forall (maxroot : list R -> res R) (ts : traces R) (m m0 : pctmc R) (to_update : list string) (eps : R) (max_it : nat) rnd pl,
  (forall q, In q to_update -> In q (pc_par m)) -> rnd (prune (alphabet_of ts) m) = Some m0 -> sortParameters m0 (others m to_update) = Ok pl ->
  fit_parameters fresh maxroot ts m to_update eps max_it rnd = Some (Err AttributeError, m0).
Proof.
  intros maxroot ts m m0 tu eps mx rnd pl Hu Er Ep. unfold fit_parameters.
  replace (forallb (fun p0 => memb String.eqb p0 (pc_par m)) tu) with true by (symmetry; apply forallb_forall; intros q Iq; apply (memb_In _ String.eqb_eq); auto).
  cbn [negb]. rewrite Er. fold (others m tu). rewrite Ep. reflexivity.
Qed.
Print Assumptions C111_fit_parameters_new_object.
Definition exM : pctmc R := mkPC [[0; 1; 0]; [2; 0; 2]; [0; 2; 0]]%nat ["init"; "a"; "b"]%string [EConst 0; EVar "x"; EConst 3] [("x"%string, 1)] [[(0, 1)]]%Z ["x"]%string [1; 0; 0] "ex".
Theorem C111_model_changed_refuted : exists (ts : traces R) (m : pctmc R) (to_update : list string) (e : exn) (m' : pctmc R), wf_pctmc m /\
  (forall maxroot eps max_it, fit_parameters fresh maxroot ts m to_update eps max_it Some = Some (Err e, m')) /\ pc_n m = 3%nat /\ pc_n m' = 2%nat.
Proof.
  exists (Timed exT), exM, ["x"]%string, AttributeError, (prune (alphabet_of (Timed exT)) exM). split; [|split; [|split; reflexivity]].
  - split; [|split; [reflexivity|split; [reflexivity|split; [reflexivity|]]]].
    + intros r [<-|[<-|[<-|[]]]]; (split; [reflexivity|]); intros k [<-|[<-|[<-|[]]]]; cbn; lia.
    + intros x [<-|[<-|[<-|[]]]]; lra.
  - intros maxroot eps mx. eapply C111_fit_parameters_new_object; [intros q I; exact I|reflexivity|reflexivity].
Qed.
Print Assumptions C111_model_changed_refuted.

(** ** C112: fit on a parametric CTMC *)
(** Default arguments: TypeError as soon as there is a parameter. *)
Theorem C112_fit_default_refuted : forall (maxroot : list R -> res R) p (ts : traces R) (m m0 : pctmc R) uc (eps : R) max_it rnd,
  rnd m = Some m0 -> pc_par m0 <> [] -> fit_PCTMC maxroot p ts m None uc eps max_it rnd = Some (Err TypeError).
Proof. intros maxroot p ts m m0 uc eps mx rnd Er N. unfold fit_PCTMC. rewrite Er. destruct (pc_par m0); [congruence|reflexivity]. Qed.
Print Assumptions C112_fit_default_refuted.
Lemma loop_err {M} (round : M -> res (M * R)) eps max_it m : (1 <= max_it)%nat -> (forall r, round m <> Ok r) -> forall r, bw_loop round eps max_it None 0 m <> Ok r.
Proof. intros L H r E. destruct max_it; [lia|]. cbn [bw_loop] in E. destruct (round m) as [[m1 l1]|] eqn:Er; [apply (H _ eq_refl)|discriminate]. Qed.
(** A round in which every trace raises, or cannot be produced, raises. *)
Lemma round_err maxroot kind uc p pl set (m : pctmc R) : (forall h tr t st, In (tr, t) set -> processWork_PCTMC kind uc m h pl tr t <> Ok (Some st)) ->
  forall r, round_PCTMC maxroot kind uc p pl set m <> Ok r.
Proof.
  intros H r E. unfold round_PCTMC in E. apply bind_ok in E. destruct E as (h & _ & E). apply bind_ok in E. destruct E as (temp & Et & E).
  unfold run_workers in Et. apply bind_ok in Et. destruct Et as (rs & Er & Et). injection Et as <-.
  assert (A : forall x, In x rs -> x = None).
  { intros x Ix. apply mmap_forall2 in Er. destruct (Forall2_In_r _ _ _ _ Er Ix) as ([tr t] & It & Ex). cbn [fst snd] in Ex. destruct x as [st|]; [|reflexivity]. exfalso. apply (H h tr t st It Ex). }
  unfold update_PCTMC in E. apply bind_ok in E. destruct E as (temp & Eu & E).
  assert (temp = []); [|subst temp; discriminate].
  destruct (1 <? p)%nat.
  - assert (F : filter (fun r => match r with Some _ => true | None => false end) rs = []).
    { clear - A. induction rs as [|x rs IH]; [reflexivity|]. cbn [filter]. rewrite (A x (or_introl eq_refl)). apply IH. intros; apply A; right; assumption. }
    rewrite F in Eu. injection Eu as <-. reflexivity.
  - destruct rs as [|x rs]; [injection Eu as <-; reflexivity|]. rewrite (A x (or_introl eq_refl)) in Eu. discriminate.
Qed.
(** Untimed traces: always an exception. *)
Theorem C112_fit_untimed_refuted : forall (maxroot : list R -> res R) p (l : list (list string * Z)) (m : pctmc R) fixed uc (eps : R) max_it rnd,
  (1 <= max_it)%nat -> forall m', fit_PCTMC maxroot p (Untimed l) m fixed uc eps max_it rnd <> Some (Ok m').
Proof.
  intros maxroot p l m fixed uc eps mx rnd Hm m' E. unfold fit_PCTMC in E. destruct (rnd m) as [m0|]; [|discriminate]. injection E as E.
  apply bind_ok in E. destruct E as (pl & _ & E). apply bind_ok in E. destruct E as (r & E & _). unfold bw_PCTMC in E. cbn [ob_verbose negb ob_processes ob_kind] in E. revert E. apply loop_err; [exact Hm|].
  intros r'. apply round_err. intros h tr t st _ E. unfold processWork_PCTMC in E. destruct (_ <? 2)%nat; [discriminate|]. destruct tr as [obs [ts|]]; discriminate.
Qed.
Print Assumptions C112_fit_untimed_refuted.
(** Timed traces of at least three observations: always an exception, for any model
    with a numeric rate, when the constants are updated (the default). *)
Lemma matrix_lens (h : ctmc R) obs ts : length obs = S (length ts) -> length (m_ws h obs ts) = length obs.
Proof.
  intros L. unfold m_ws. rewrite app_length, map_length, combine_length, removelast_length. cbn [length]. lia.
Qed.
Lemma betas_length n f (ws : list (nat -> nat -> R)) : length (bw_betas n f ws) = S (length ws).
Proof. induction ws as [|w ws IH]; [reflexivity|]. cbn [bw_betas length]. rewrite IH. reflexivity. Qed.
Lemma bmul_err (x y : list R) : length x <> length y -> length x <> 1%nat -> length y <> 1%nat -> bmul x y = Err ValueError.
Proof.
  intros A B C. unfold bmul. destruct (Nat.eqb_spec (length x) (length y)); [contradiction|]. destruct x as [|a [|a' x]]; [|cbn in B; lia|]; destruct y as [|b [|b' y]]; try reflexivity; cbn in *; lia.
Qed.
Lemma matrix_stay_err (h : ctmc R) obs ts al be ots k s : (3 <= length obs)%nat -> length obs = S (length ts) -> forward_backward KTimedMatrix h (obs, Some ts) = Ok (al, be) ->
  stay al be ots k s = Err ValueError.
Proof.
  intros L3 L E. cbn in E. injection E as <- <-. unfold stay. rewrite bmul_err; [reflexivity| | |].
  all: unfold col_init; rewrite !map_length, !removelast_length, ?bw_alphas_length, ?betas_length, ?matrix_lens by exact L; lia.
Qed.
Theorem C112_fit_timed_refuted : forall (maxroot : list R -> res R) p (l : list ((list string * list R) * Z)) (m m0 : pctmc R) fixed (eps : R) max_it rnd i j,
  (1 <= max_it)%nat -> (forall tr t, In (tr, t) l -> (3 <= length (fst tr))%nat /\ length (fst tr) = S (length (snd tr))) ->
  rnd m = Some m0 -> wf_pctmc m0 -> (i < pc_n m0)%nat -> (j < pc_n m0)%nat -> (forall x, ~ occurs x (transition m0 i j)) -> nth j (nth i (pc_mat m0) []) 0%nat <> 0%nat ->
  forall m', fit_PCTMC maxroot p (Timed l) m fixed true eps max_it rnd <> Some (Ok m').
Proof.
  intros maxroot p l m m0 fixed eps mx rnd i j Hm Hl Er W Hi Hj No NZ m' E. unfold fit_PCTMC in E. rewrite Er in E. injection E as E.
  apply bind_ok in E. destruct E as (pl & _ & E). apply bind_ok in E. destruct E as (r & E & _). unfold bw_PCTMC in E. cbn [ob_verbose negb ob_processes ob_kind] in E. revert E. apply loop_err; [exact Hm|].
  intros r'. apply round_err. intros h tr t st I E. unfold processWork_PCTMC in E. destruct (_ <? 2)%nat; [discriminate|].
  apply bind_ok in E. destruct E as ([al be] & Ef & E). destruct (neqb _ _) in E; [discriminate|]. apply bind_ok in E. destruct E as (cs & Ec & _).
  unfold training_of in I. set (has := memb String.eqb "init"%string (alphabet_of (Timed l))) in I. apply in_map_iff in I. destruct I as ([[obs ts] t'] & Et & I). cbn [fst snd] in Et. destruct has.
  2:{ injection Et as <- _. discriminate. }
  injection Et as <- _. destruct (Hl _ _ I) as [L3 L]. cbn [fst snd] in L3, L.
  apply mmap_forall2 in Ec. set (k := nth j (nth i (pc_mat m0) []) 0%nat) in *.
  assert (Hk : (k < length (pc_expr m0))%nat).
  { destruct W as [W _]. apply (W (nth i (pc_mat m0) [])); [apply nth_In; exact Hi|]. apply nth_In. rewrite (proj1 (W (nth i (pc_mat m0) []) (nth_In _ _ Hi))). exact Hj. }
  destruct (Forall2_In_l _ _ _ k Ec) as (b & _ & Eb); [apply in_seq; lia|]. unfold work_cste in Eb.
  replace (symbols (nth k (pc_expr m0) (EConst n0))) with (@nil string) in Eb.
  2:{ destruct (symbols (nth k (pc_expr m0) (EConst n0))) as [|x r0] eqn:Es; [reflexivity|]. exfalso. apply (No x). unfold transition. fold k. apply symbols_occurs. change 0 with (@n0 R RNum). rewrite Es. left. reflexivity. }
  destruct (first_use m0 k); [|discriminate]. cbn [bind] in Eb. rewrite (matrix_stay_err h obs ts al be _ _ _ L3 L Ef) in Eb. discriminate.
Qed.
Print Assumptions C112_fit_timed_refuted.
(** Such a model and such traces: rate 1 of exL and a trace of three observations. *)
Example C112_instance : forall maxroot p fixed eps m', fit_PCTMC maxroot p (Timed [((["init"; "a"; "a"], [1; 2]), 1%Z)]%string) exL fixed true eps 5 Some <> Some (Ok m').
Proof.
  intros maxroot p fixed eps m'. apply (C112_fit_timed_refuted maxroot p _ exL exL fixed eps 5 Some 0 0).
  - lia.
  - intros tr t [E|[]]. injection E as <- <-. cbn. lia.
  - reflexivity.
  - exact exL_wf.
  - cbn. lia.
  - cbn. lia.
  - intros x [].
  - cbn. lia.
Qed.

(** ** C113, C114: two states, one parameter *)
Definition exE (e : expr R) (v : R) : pctmc R := mkPC [[0; 1]; [2; 0]]%nat ["init"; "a"]%string [EConst 0; e; EConst 3] [("x"%string, v)] [[(0, 1)]]%Z ["x"]%string [1; 0] "ex".
Definition exCT (r : R) : ctmc R := mkCTMC [[0; r]; [3; 0]] ["init"; "a"]%string [1; 0] "ex".
Lemma exE_hval e v r : eval [("x"%string, v)] e = Some r -> hval (exE e v) = Ok (exCT r).
Proof. intros E. unfold hval. cbn -[eval]. unfold evaluateTransition. cbn -[eval]. rewrite E. reflexivity. Qed.
Lemma exE_round maxroot e v r c T a : eval [("x"%string, v)] e = Some r -> 0 < r -> c * T <> 0 ->
  exists ll, round_PCTMC maxroot KTimed false 1 (mkPlan a ["x"]%string [] [] [((0, 1)%nat, c)]) [((["init"; "a"]%string, Some [T]), 1%Z)] (exE e v) = Ok (exE e (/ (c * T)), ll).
Proof.
  intros E Hr Hc. unfold round_PCTMC. rewrite (exE_hval _ _ _ E). cbn [bind]. pose proof (exp_pos (0 - (r + 0) * T)) as Hx.
  unfold processWork_PCTMC, run_workers. cbn -[eval work1 update_PCTMC].
  set (x := exp (0 - (0 + (r + 0)) * T)). set (y := exp (0 - (3 + (0 + 0)) * T)).
  set (P := (1 * (0 * x) + (0 * (0 * y) + 0)) * 0 + ((1 * (r * x) + (0 * (0 * y) + 0)) * 1 + 0)).
  assert (Hp : 0 < x) by apply exp_pos. assert (EP : P = r * x) by (unfold P; ring). assert (PP : 0 < P) by (rewrite EP; nra).
  destruct (Reqb P 0) eqn:EB; [exfalso; unfold Reqb in EB; destruct (Req_EM_T P 0); [lra|discriminate]|].
  change (pair_of (0%Z, 1%Z)) with (0%nat, 1%nat). unfold work1. cbn -[eval update_PCTMC]. fold x. rewrite ?Rltb_leb. cbn -[eval update_PCTMC].
  unfold Rleb at 1. destruct (Rle_dec (r * x + 0) 0); [exfalso; nra|]. cbn -[eval]. change (table_get 0 [(0%nat, 1%nat, c)] (0%nat, 1%nat)) with c.
  unfold new_value1. cbn -[eval].
  match goal with |- context [Reqb ?d 0] => replace d with (c * T) by (rewrite EP; field; split; lra) end.
  unfold Reqb. destruct (Req_EM_T (c * T) 0); [contradiction|]. cbn -[eval].
  match goal with |- context [?d / (c * T)] => replace (d / (c * T)) with (/ (c * T)) by (rewrite EP; field; repeat split; try lra; try (intro; subst; lra)) end.
  eexists. f_equal. f_equal. unfold instantiate, checkRates, evaluateTransition. cbn -[eval]. rewrite E. rewrite ?Rltb_leb. cbn. rewrite ?Rltb_leb.
  unfold Rleb. destruct (Rle_dec 0 r); [|lra]. destruct (Rle_dec 0 3); [|lra]. reflexivity.
Qed.
Definition exTr (T : R) : list ((list string * list R) * Z) := [((["init"; "a"]%string, [T]), 1%Z)].
Lemma exE_fit maxroot e v r c T : eval [("x"%string, v)] e = Some r -> 0 < r -> c * T <> 0 ->
  sortParameters (exE e v) [] = Ok (mkPlan [[((0, 1)%nat, 1%nat)]] ["x"]%string [] [] [((0, 1)%nat, c)]) ->
  fit_parameters exO maxroot (Timed (exTr T)) (exE e v) ["x"]%string 1 1 Some = Some (Ok [("x"%string, Some (/ (c * T)))], exE e (/ (c * T))).
Proof.
  intros E Hr Hc Hs. unfold fit_parameters. cbn -[sortParameters eval round_PCTMC prune training_of].
  change (prune ["init"; "a"]%string (exE e v)) with (exE e v). change (training_of (Timed (exTr T))) with [((["init"; "a"]%string, Some [T]), 1%Z)].
  rewrite Hs. cbn -[eval round_PCTMC exE]. destruct (exE_round maxroot e v r c T [[((0, 1)%nat, 1%nat)]] E Hr Hc) as [ll ->]. reflexivity.
Qed.
Lemma exE_realises e v r : eval [("x"%string, v)] e = Some r -> realises (exE e v) (exCT r).
Proof. intros E. apply hval_realises. apply exE_hval. exact E. Qed.
Lemma exE_wf e v : wf_pctmc (exE e v).
Proof.
  split; [|split; [reflexivity|split; [reflexivity|split; [reflexivity|]]]].
  - intros w [<-|[<-|[]]]; (split; [reflexivity|]); intros k [<-|[<-|[]]]; cbn; lia.
  - intros x [<-|[<-|[]]]; lra.
Qed.
Lemma exE_valued e v r : eval [("x"%string, v)] e = Some r -> 0 <= r -> 0 <= v -> valued (exE e v).
Proof.
  intros E Hr Hv. split; [intros p [<-|[]]; exists v; split; [reflexivity|lra]|]. intros i j w Hi Hj Hw.
  destruct (exE_realises e v r E) as (_ & _ & _ & _ & R). specialize (R i j Hi Hj). rewrite (has_value_fun _ _ _ _ Hw R). two Hi; two Hj; unfold matR; cbn; lra.
Qed.
Lemma exCT_density r T : ct_density (exCT r) (["init"; "a"]%string, [T]) = r * exp (- (r * T)).
Proof.
  unfold ct_density, trace_prob, sumL, jump_density, is_label, exit_rate, matR. cbn. replace (0 + (r + 0)) with r by ring. ring.
Qed.

(** fit_nonInstantiatedParameters changes the parameters which have a value. *)
Theorem C113_instantiated_parameter_refuted : exists (ts : traces R) (m m' : pctmc R) (x : string), wf_pctmc m /\ valued m /\ In x (pc_par m) /\ current m x = Some 1 /\
  forall maxroot, fit_nonInstantiatedParameters exO maxroot ts m 1 1 Some = Some (Ok [(x, Some (1 / 2))], m') /\ current m' x = Some (1 / 2).
Proof.
  exists (Timed (exTr 2)), (exE (EVar "x") 1), (exE (EVar "x") (1 / 2)), "x"%string. split; [apply exE_wf|]. split.
  { apply (exE_valued _ 1 1); [reflexivity|lra|lra]. }
  split; [left; reflexivity|]. split; [reflexivity|]. intros maxroot. split; [|reflexivity].
  unfold fit_nonInstantiatedParameters. replace (1 / 2) with (/ (1 * 2)) by field. apply (exE_fit maxroot _ 1 1); [reflexivity|lra|lra|]. reflexivity.
Qed.
Print Assumptions C113_instantiated_parameter_refuted.

(** A rate 2*x + 3: the constant is ignored, and the likelihood decreases. *)
Theorem C114_additive_constant_refuted : exists set (m m' : pctmc R) (c c' : ctmc R), timed_set set /\ pos_times set /\ pos_dwell set /\ wf_pctmc m /\ indexed m /\ valued m /\
  realises m c /\ realises m' c' /\ (forall maxroot, exists result, fit_parameters exO maxroot (Timed set) m (pc_par m) 1 1 Some = Some (Ok result, m')) /\
  set_ll (ct_density c') set < set_ll (ct_density c) set.
Proof.
  pose (e := EAdd (EMul (EConst 2) (EVar "x")) (EConst 3)).
  exists (exTr (1 / 5)), (exE e 1), (exE e (5 / 2)), (exCT (2 * 1 + 3)), (exCT (2 * (5 / 2) + 3)).
  split; [intros tr t [E|[]]; injection E as <- <-; split; [reflexivity|intros d [<-|[]]; lra]|].
  split; [intros x [<-|[]]; cbn; lia|]. split; [intros tr t [E|[]]; injection E as <- <-; intros d [<-|[]]; lra|]. split; [apply exE_wf|].
  split.
  { split; [repeat constructor; intros []|]. split.
    - intros i j x Hi Hj. cbn in Hi, Hj. destruct i as [|[|i]], j as [|[|j]]; try lia; cbn; intuition (subst; auto).
    - intros p [<-|[]]. split; [repeat constructor; intros []|]. intros i j. cbn. split.
      + intros [E|[]]. injection E as <- <-. split; [lia|]. split; [lia|]. change (Z.to_nat 1) with 1%nat. cbn. auto.
      + intros (Hi & Hj & O). assert (i = 0 \/ i = 1)%Z by lia. assert (j = 0 \/ j = 1)%Z by lia. destruct H as [-> | ->], H0 as [-> | ->]; change (Z.to_nat 1) with 1%nat in O; cbn in O; intuition. }
  split.
  { apply (exE_valued _ 1 (2 * 1 + 3)); [reflexivity|lra|lra]. }
  split; [apply exE_realises; reflexivity|]. split; [apply exE_realises; reflexivity|]. split.
  - intros maxroot. eexists. replace (5 / 2) with (/ ((1 * 2) * (1 / 5))) by field. apply (exE_fit maxroot _ 1 (2 * 1 + 3)); [reflexivity|lra|lra|]. reflexivity.
  - unfold set_ll, exTr, sumL. cbn [map fst snd rsum fold_right]. rewrite !exCT_density.
    repeat (match goal with |- context [Rlt_dec 0 ?d] => destruct (Rlt_dec 0 d) as [_|Hn]; [|exfalso; apply Hn; apply Rmult_lt_0_compat; [lra|apply exp_pos]] end).
    assert (L : ln ((2 * (5 / 2) + 3) * exp (- ((2 * (5 / 2) + 3) * (1 / 5)))) < ln ((2 * 1 + 3) * exp (- ((2 * 1 + 3) * (1 / 5))))); [|lra].
    apply ln_increasing; [apply Rmult_lt_0_compat; [lra|apply exp_pos]|].
    replace (- ((2 * 1 + 3) * (1 / 5))) with (3 / 5 + - ((2 * (5 / 2) + 3) * (1 / 5))) by field. rewrite exp_plus.
    assert (A : 1 + 3 / 5 < exp (3 / 5)) by (apply exp_ineq1; lra). pose proof (exp_pos (- ((2 * (5 / 2) + 3) * (1 / 5)))). nra.
Qed.
Print Assumptions C114_additive_constant_refuted.
