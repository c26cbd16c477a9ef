(** An instantiated parametric CTMC is the CTMC of its evaluated rates (C87);
    simulation of parametric CTMCs (C88). *)
From Coq Require Import String ZArith Bool Reals Lra Lia Arith List.
From Verif Require Import Num Py MTools MSet MModels MCtor MRun MLik MPctmc SNum SSet SPath SBW SCtor SLik SRun SPctmc LSum LSet LCtor LBW LLik LRun LPctmc PCtor PRun PPctmc.
Import ListNotations.
Local Open Scope R_scope.

(** ** C87 *)
Definition the_ctmc (m : pctmc R) : ctmc R :=
  mkCTMC (map (fun i => map (pc_eval m i) (seq 0 (pc_n m))) (seq 0 (pc_n m))) (pc_lab m) (pc_ini m) (pc_name m).
Lemma nth_map_seq {A} (f : nat -> A) n i d : (i < n)%nat -> nth i (map f (seq 0 n)) d = f i.
Proof. intros L. rewrite (nth_indep _ d (f O)) by (rewrite map_length, seq_length; exact L). rewrite map_nth, seq_nth by exact L. reflexivity. Qed.

(** The parameters of the outgoing transitions of [s] all have a value. *)
Definition determined (m : pctmc R) (s : nat) : Prop :=
  forall j x, (j < pc_n m)%nat -> occurs x (transition m s j) -> parameterValue m x <> None.
Theorem C87_exists : forall (m : pctmc R), wf_pctmc m -> (forall s, (s < pc_n m)%nat -> determined m s) -> exists c, realises m c.
Proof.
  intros m W D. exists (the_ctmc m). split; [reflexivity|]. split; [reflexivity|]. split; [unfold ct_n; cbn; rewrite map_length, seq_length; reflexivity|]. split.
  - intros r I. cbn in I. apply in_map_iff in I as (i & <- & _). rewrite map_length, seq_length. reflexivity.
  - intros i j Li Lj. unfold matR, vecR. cbn [ct_mat the_ctmc]. rewrite nth_map_seq, nth_map_seq by assumption.
    destruct (eval_some (pc_val m) (transition m i j)) as (v & E); [intros x O; apply (D i Li j x Lj O)|]. unfold pc_eval, evaluateTransition. rewrite transition_eq, E. apply eval_has_value in E. exact E.
Qed.
Print Assumptions C87_exists.

Lemma involved_spec (m : pctmc R) s x : In x (involvedParameters m s None) <-> exists j, (j < pc_n m)%nat /\ occurs x (transition m s j).
Proof.
  unfold involvedParameters. destruct (dedup_exact String.eqb String.eqb_eq (flat_map (fun jj => symbols (transitionExpression m s jj)) (seq 0 (pc_n m)))) as (_ & A).
  rewrite A, in_flat_map. split.
  - intros (j & I & O). apply in_seq in I. exists j. split; [lia|]. apply symbols_occurs, O.
  - intros (j & L & O). exists j. split; [apply in_seq; lia|]. apply symbols_occurs, O.
Qed.
Lemma inst_state_spec (m : pctmc R) s : (s < pc_n m)%nat -> exists b, inst_state m s None = Ok b /\ (b = true <-> determined m s).
Proof.
  intros L. unfold inst_state. destruct (Nat.ltb_spec s (pc_n m)); [|lia]. eexists. split; [reflexivity|]. rewrite forallb_forall. unfold determined. split.
  - intros A j x Lj O N. specialize (A x). rewrite involved_spec in A. specialize (A ltac:(eauto)). unfold inst_param, parameterValue in *. rewrite N in A. discriminate.
  - intros A x I. apply involved_spec in I as (j & Lj & O). specialize (A j x Lj O). unfold inst_param, parameterValue in *. destruct (dget (pc_val m) x); congruence.
Qed.
(** isInstantiated(s) says whether the exit rate is defined. *)
Theorem C87_isInstantiated : forall (m : pctmc R) s, (s < pc_n m)%nat ->
  exists b, inst_state m s None = Ok b /\ (b = true <-> determined m s) /\
    (b = true <-> forall j, (j < pc_n m)%nat -> exists v, has_rate m (current m) s j v).
Proof.
  intros m s L. destruct (inst_state_spec m s L) as (b & E & B). exists b. split; [exact E|]. split; [exact B|]. rewrite B. split.
  - intros D j Lj. destruct (eval_some (pc_val m) (transition m s j)) as (v & V); [intros x O; apply (D j x Lj O)|]. exists v. apply eval_has_value in V. exact V.
  - intros A j x Lj O N. destruct (A j Lj) as (v & r & V & _). pose proof (V x O) as V1. unfold current in V1. congruence.
Qed.
Print Assumptions C87_isInstantiated.

Section Real.
  Context (m : pctmc R) (c : ctmc R) (W : wf_pctmc m) (RE : realises m c).
  Lemma real_eval i j : (i < pc_n m)%nat -> (j < pc_n m)%nat -> evaluateTransition m i j None = Some (matR (ct_mat c) i j).
  Proof. intros Li Lj. apply evaluate_rate. apply RE; assumption. Qed.
  Lemma real_pc_eval i j : (i < pc_n m)%nat -> (j < pc_n m)%nat -> pc_eval m i j = matR (ct_mat c) i j.
  Proof. intros Li Lj. unfold pc_eval. rewrite real_eval by assumption. reflexivity. Qed.
  Lemma real_row i : (i < pc_n m)%nat -> map (pc_eval m i) (seq 0 (pc_n m)) = nth i (ct_mat c) [].
  Proof.
    intros Li. destruct RE as (_ & _ & Ln & Lr & _). assert (LL : length (nth i (ct_mat c) []) = pc_n m) by (apply Lr, nth_In; unfold ct_n in Ln; lia).
    apply (nth_ext _ _ 0 0); [rewrite map_length, seq_length; symmetry; exact LL|]. rewrite map_length, seq_length. intros j Lj. rewrite nth_map_seq by exact Lj. apply real_pc_eval; assumption.
  Qed.
  Lemma real_det i : (i < pc_n m)%nat -> inst_state m i None = Ok true.
  Proof.
    intros Li. destruct (C87_isInstantiated m i Li) as (b & E & _ & B). rewrite E. f_equal. apply B. intros j Lj. exists (matR (ct_mat c) i j). apply RE; assumption.
  Qed.
  Lemma real_e i : (i < pc_n m)%nat -> pc_e m i = Ok (exit_rate c i).
  Proof. intros Li. unfold pc_e. rewrite real_det by exact Li. cbn [bind]. rewrite real_row by exact Li. reflexivity. Qed.
  Lemma real_lab i : (i < pc_n m)%nat -> at_list (pc_lab m) i = Ok (nth i (pc_lab m) EmptyString).
  Proof. intros Li. apply at_list_nth. destruct W as (_ & L & _). lia. Qed.
  Lemma real_wf : wf_ctmc c.
  Proof.
    destruct RE as (E1 & E2 & Ln & Lr & _), W as (_ & L1 & L2 & _ & N). split; [|split; [rewrite E1; lia|split; [rewrite E2; lia|rewrite E2; exact N]]].
    split; [reflexivity|]. intros r I. rewrite Ln. apply Lr, I.
  Qed.
End Real.

(** The accessors agree with the CTMC of the evaluated rates. *)
Theorem C87_accessors : forall (m : pctmc R) (c : ctmc R), wf_pctmc m -> realises m c -> forall s s' o, (s < pc_n m)%nat -> (s' < pc_n m)%nat ->
  pc_e m s = Ok (exit_rate c s) /\
  pc_l m s s' o = Ok (Some (if String.eqb (nth s (ct_lab c) EmptyString) o then matR (ct_mat c) s s' else 0)) /\
  (exit_rate c s <> 0 -> pc_expected_time m s = Ok (Fin (1 / exit_rate c s)) /\
     pc_tau m s s' o = Ok (Fin (if String.eqb (nth s (ct_lab c) EmptyString) o then jump c s s' else 0))) /\
  (exit_rate c s = 0 -> pc_expected_time m s = Ok Inf) /\
  (forall t, 0 <= t -> pc_lkl m s t = Ok (Fin (exit_rate c s * exp (- (exit_rate c s * t))))) /\
  (forall t, t < 0 -> pc_lkl m s t = Ok (Fin 0)).
Proof.
  intros m c W RE s s' o Ls Ls'. pose proof (real_e m c RE s Ls) as Ee.
  assert (El : pc_l m s s' o = Ok (Some (if String.eqb (nth s (ct_lab c) EmptyString) o then matR (ct_mat c) s s' else 0))).
  { unfold pc_l. destruct (Nat.ltb_spec s (pc_n m)); [|lia]. destruct (Nat.ltb_spec s' (pc_n m)); [|lia]. cbn [andb]. rewrite (real_lab m W) by exact Ls. cbn [bind]. rewrite (proj1 RE).
    destruct (String.eqb _ o); [|reflexivity]. rewrite (real_eval m c RE) by assumption. reflexivity. }
  split; [exact Ee|]. split; [exact El|]. unfold pc_expected_time, pc_tau, pc_lkl. rewrite Ee, El. cbn [bind].
  split; [|split; [|split]].
  - intros N. nR. destruct (Reqb (exit_rate c s) 0) eqn:Z; [apply Reqb_true in Z; contradiction|]. split; [reflexivity|]. destruct (String.eqb _ o); [reflexivity|]. unfold Rdiv. rewrite Rmult_0_l. reflexivity.
  - intros Z. nR. rewrite (proj2 (Reqb_true _ _) Z). reflexivity.
  - intros t P. change (@n0 R RNum) with 0. rewrite (proj2 (Rltb_false _ _) P). nR. rewrite Rminus_0_l. reflexivity.
  - intros t P. change (@n0 R RNum) with 0. rewrite (proj2 (Rltb_true _ _) P). reflexivity.
Qed.
Print Assumptions C87_accessors.
(** In a state without outgoing rate tau is inf, for every observation. *)
Theorem C87_tau_refuted : forall (m : pctmc R) (c : ctmc R), wf_pctmc m -> realises m c -> forall s s' o, (s < pc_n m)%nat -> exit_rate c s = 0 -> pc_tau m s s' o = Ok Inf.
Proof. intros m c W RE s s' o Ls Z. unfold pc_tau. rewrite (real_e m c RE s Ls). nR. rewrite (proj2 (Reqb_true _ _) Z). reflexivity. Qed.
Print Assumptions C87_tau_refuted.
(** Missing values. *)
Theorem C87_undetermined : forall (m : pctmc R) s, (s < pc_n m)%nat -> ~ determined m s ->
  pc_e m s = Err ValueError /\ pc_expected_time m s = Ok PyNone /\ (forall s' o, pc_tau m s s' o = Ok PyNone).
Proof.
  intros m s L N. destruct (inst_state_spec m s L) as (b & E & B). assert (b = false) by (destruct b; [exfalso; apply N, B; reflexivity|reflexivity]). subst b.
  assert (Ee : pc_e m s = Err ValueError) by (unfold pc_e; rewrite E; reflexivity). unfold pc_expected_time, pc_tau. rewrite Ee. auto.
Qed.
Print Assumptions C87_undetermined.

(** States which do not exist, whatever the arithmetic: IndexError. *)
Theorem C87_no_such_state : forall K (NK : Num K) (TK : Trans K) (m : pctmc K) s s' o, (pc_n m <= s)%nat ->
  pc_e m s = Err IndexError /\ pc_l m s s' o = Err IndexError /\ pc_l m s' s o = Err IndexError /\ pc_tau m s s' o = Err IndexError /\
  pc_expected_time m s = Err IndexError /\ (forall t, nltb t n0 = false -> pc_lkl m s t = Err IndexError) /\ (forall sample, pc_next m s sample = Err IndexError).
Proof.
  intros K NK TK m s s' o L. assert (F : (s <? pc_n m)%nat = false) by (apply Nat.ltb_ge; exact L).
  assert (E : inst_state m s None = Err IndexError) by (unfold inst_state; rewrite F; reflexivity).
  assert (Ee : pc_e m s = Err IndexError) by (unfold pc_e; rewrite E; reflexivity).
  unfold pc_l, pc_tau, pc_expected_time, pc_lkl, pc_next. rewrite Ee, E, F, andb_false_r. repeat split. intros t Ht. rewrite Ht. reflexivity.
Qed.
Print Assumptions C87_no_such_state.
Theorem C87_tau_no_target : forall (m : pctmc R) (c : ctmc R), wf_pctmc m -> realises m c -> forall s s' o, (s < pc_n m)%nat -> (pc_n m <= s')%nat ->
  exit_rate c s <> 0 -> pc_tau m s s' o = Err IndexError.
Proof.
  intros m c W RE s s' o L L' N. unfold pc_tau. rewrite (real_e m c RE s L). nR. destruct (Reqb (exit_rate c s) 0) eqn:Z; [apply Reqb_true in Z; contradiction|].
  rewrite (proj1 (proj2 (proj2 (C87_no_such_state R RNum RTrans m s' s o L')))). reflexivity.
Qed.
Print Assumptions C87_tau_no_target.

(** Timed traces: the average log-likelihood, or ValueError as soon as one trace
    is impossible. *)
Lemma mmap_err {A B} (f : A -> res B) (l : list A) e : (forall a, In a l -> (exists b, f a = Ok b) \/ f a = Err e) -> (exists a, In a l /\ f a = Err e) -> mmap f l = Err e.
Proof.
  induction l as [|a l IH]; [intros _ (a & [] & _)|]. intros H X. cbn [mmap]. destruct (H a (or_introl eq_refl)) as [(b & E)|E]; rewrite E; cbn [bind]; [|reflexivity].
  rewrite IH; [reflexivity|intros a' I; apply H; right; exact I|]. destruct X as (a' & [<-|I] & E'); [congruence|eauto].
Qed.
Lemma real_fold (m : pctmc R) (c : ctmc R) : wf_pctmc m -> realises m c -> forall l prev,
  fold_left (fun prev ot => fstep (pc_n m) prev (pc_w m ot)) l prev = fold_left (fun prev ot => fstep (ct_n c) prev (ct_w c ot)) l prev.
Proof.
  intros W RE. assert (Ln : ct_n c = pc_n m) by apply RE. rewrite Ln. induction l as [|ot l IH]; intros prev; [reflexivity|]. cbn [fold_left]. rewrite IH. f_equal.
  unfold fstep, vbuild. apply map_ext_in. intros s I. apply in_seq in I. f_equal. apply map_ext_in. intros ss J. apply in_seq in J.
  unfold pc_w, ct_w, ct_l, ct_e. rewrite (proj1 RE). rewrite (real_row m c RE) by lia. rewrite (real_pc_eval m c RE) by lia. destruct (String.eqb _ _); reflexivity.
Qed.
Theorem C87_timed_logLikelihood : forall (m : pctmc R) (c : ctmc R) (s : list (timed * Z)), wf_pctmc m -> realises m c ->
  (forall p, In p (pc_par m) -> parameterValue m p <> None) ->
  (forall tr t, In (tr, t) s -> length (fst tr) = S (length (snd tr))) ->
  ((forall tr t, In (tr, t) s -> 0 < ct_density c tr) -> zsum (map snd s) <> 0%Z -> pc_logLikelihood_timed m s = Ok (avg_ll (ct_density c) s)) /\
  (s = [] -> pc_logLikelihood_timed m s = Err ZeroDivisionError) /\
  ((exists tr t, In (tr, t) s /\ ct_density c tr <= 0) -> pc_logLikelihood_timed m s = Err ValueError).
Proof.
  intros m c s W RE INS Hl. unfold pc_logLikelihood_timed.
  assert (IM : inst_model m = true). { unfold inst_model. apply forallb_forall. intros p I. specialize (INS p I). unfold inst_param, parameterValue in *. destruct (dget (pc_val m) p); congruence. }
  rewrite IM. cbn [negb].
  assert (ONE : forall tr t, In (tr, t) s -> pc_computeAlphas_timed m tr t = if Rle_dec (ct_density c tr) 0 then Err ValueError else Ok (ln (ct_density c tr) * IZR t)).
  { intros (obs, ts) t I. specialize (Hl _ _ I). cbn [fst snd] in Hl. pose proof (ct_prob_timed_eq c obs ts (real_wf m c W RE) Hl) as P. unfold ct_prob_timed in P. unfold pc_computeAlphas_timed.
    destruct (rev obs) as [|lst butlast]; [discriminate|]. destruct (length ts <? length butlast)%nat; [discriminate|]. rewrite (real_fold m c W RE).
    assert (Ln : ct_n c = pc_n m) by apply RE. assert (Ei : ct_ini c = pc_ini m) by apply RE. assert (Elb : ct_lab c = pc_lab m) by apply RE. rewrite Ln, Ei, Elb in P. rewrite Ln. match type of P with Ok ?a = Ok ?b => assert (Q : a = b) by congruence end. rewrite Q. nR. unfold Rleb. destruct (Rle_dec (ct_density c (obs, ts)) 0); reflexivity. }
  split; [|split].
  - intros P NZ. rewrite (mmap_ok _ (fun st => ln (ct_density c (fst st)) * IZR (snd st))).
    + cbn [bind]. apply Z.eqb_neq in NZ. cbv zeta. rewrite NZ. clear NZ. toR. unfold avg_ll. f_equal. f_equal. unfold set_ll.
      clear - P. induction s as [|(tr, t) s IH]; [reflexivity|]. cbn [map fst snd]. rewrite rsum_cons, sumL_cons, IH by (intros; eapply P; right; eassumption).
      f_equal. specialize (P tr t (or_introl eq_refl)). cbn [fst snd]. destruct (Rlt_dec 0 (ct_density c tr)); [lra|contradiction].
    + intros (tr, t) I. cbn [fst snd]. rewrite ONE by exact I. specialize (P tr t I). destruct (Rle_dec (ct_density c tr) 0); [lra|reflexivity].
  - intros ->. reflexivity.
  - intros (tr & t & I & N). rewrite (mmap_err _ s ValueError); [reflexivity| |].
    + intros (tr', t') I'. cbn [fst snd]. rewrite ONE by exact I'. destruct (Rle_dec (ct_density c tr') 0); eauto.
    + exists (tr, t). split; [exact I|]. cbn [fst snd]. rewrite ONE by exact I. destruct (Rle_dec (ct_density c tr) 0); [reflexivity|contradiction].
Qed.
Print Assumptions C87_timed_logLikelihood.
(** A set that starts with a trace without observation. *)
Theorem C87_timed_empty_trace : forall (m : pctmc R) ts t s,
  (forall p, In p (pc_par m) -> parameterValue m p <> None) -> pc_logLikelihood_timed m ((([], ts), t) :: s) = Err IndexError.
Proof.
  intros m ts t s INS. unfold pc_logLikelihood_timed.
  assert (IM : inst_model m = true). { unfold inst_model. apply forallb_forall. intros p I. specialize (INS p I). unfold inst_param, parameterValue in *. destruct (dget (pc_val m) p); congruence. }
  rewrite IM. reflexivity.
Qed.
Print Assumptions C87_timed_empty_trace.

(** Non-vacuity: ex_pc with x = 3. *)
Definition ex_inst : pctmc R := mkPC (pc_mat ex_pc) (pc_lab ex_pc) (pc_expr ex_pc) [("x"%string, 3)] (pc_ind ex_pc) (pc_par ex_pc) (pc_ini ex_pc) (pc_name ex_pc).
Definition ex_real : ctmc R := mkCTMC [[0; 3]; [2; 0]] ["init"; "a"]%string [1; 0] "ex".
Lemma ex_inst_wf : wf_pctmc ex_inst.
Proof. exact ex_pc_wf. Qed.
Lemma ex_realises : realises ex_inst ex_real.
Proof.
  split; [reflexivity|]. split; [reflexivity|]. split; [reflexivity|]. split; [intros r [<-|[<-|[]]]; reflexivity|].
  intros i j Li Lj. assert (C : (i = 0 \/ i = 1)%nat) by (cbn in Li; lia). assert (D : (j = 0 \/ j = 1)%nat) by (cbn in Lj; lia).
  destruct C as [-> | ->], D as [-> | ->]; exists (fun _ => 3); (split; [cbn; intros x O; try contradiction; try (subst; reflexivity)|reflexivity]).
Qed.
Example C87_instance : pc_e ex_inst 0 = Ok 3 /\ pc_tau ex_inst 0 1 "init" = Ok (Fin 1) /\
  pc_logLikelihood_timed ex_inst [(([ "init"; "a" ]%string, [2]), 5%Z)] = Ok (ln (3 * exp (- 6))).
Proof.
  assert (L0 : (0 < pc_n ex_inst)%nat) by (cbn; lia). assert (L1 : (1 < pc_n ex_inst)%nat) by (cbn; lia).
  destruct (C87_accessors ex_inst ex_real ex_inst_wf ex_realises 0 1 "init"%string L0 L1) as (A & _ & B & _). assert (X : exit_rate ex_real 0 = 3) by (unfold exit_rate; cbn; lra).
  split; [rewrite A, X; reflexivity|]. split; [rewrite X in B; destruct (B ltac:(lra)) as (_ & ->); cbn; unfold jump; rewrite X; unfold matR, vecR; cbn; f_equal; f_equal; lra|].
  assert (D : ct_density ex_real (["init"; "a"]%string, [2]) = 3 * exp (- 6)).
  { unfold ct_density, trace_prob, paths, jump_density. cbn [fst snd map length]. unfold sumL. cbn. unfold exit_rate, is_label. cbn. unfold matR, vecR. cbn.
    replace (- ((0 + (3 + 0)) * 2)) with (- 6) by lra. lra. }
  destruct (C87_timed_logLikelihood ex_inst ex_real [(([ "init"; "a" ]%string, [2]), 5%Z)] ex_inst_wf ex_realises) as (T & _).
  - intros p [<-|[]]. discriminate.
  - intros tr t [[= <- <-]|[]]. reflexivity.
  - rewrite T.
    + unfold avg_ll, set_ll, sumL. cbn [map rsum fold_right fst snd zsum]. rewrite D. f_equal. cbn. destruct (Rlt_dec 0 (3 * exp (-6))) as [P|P]; [cbn; field|]. exfalso. apply P. apply Rmult_lt_0_compat; [lra|apply exp_pos].
    + intros tr t [[= <- <-]|[]]. rewrite D. apply Rmult_lt_0_compat; [lra|apply exp_pos].
    + cbn. lia.
Qed.

(** ** C88 *)
Lemma olt_trans_false (a b c : option R) : olt a b = false -> olt b c = false -> olt a c = false.
Proof.
  destruct a as [a|], b as [b|], c as [c|]; cbn; try congruence. intros H1 H2. apply Rltb_false in H1, H2. apply Rltb_false. lra.
Qed.
Lemma olt_irrefl (a : option R) : olt a a = false.
Proof. destruct a; cbn; [apply Rltb_false; lra|reflexivity]. Qed.
Lemma omin_spec (l : list (option R)) : forall x, In (omin x l) (x :: l) /\ forall y, In y (x :: l) -> olt y (omin x l) = false.
Proof.
  induction l as [|b l IH]; intros x; [cbn; split; [auto|intros y [<-|[]]; apply olt_irrefl]|]. unfold omin. cbn [fold_left].
  change (fold_left _ l (if olt b x then b else x)) with (omin (if olt b x then b else x) l). destruct (IH (if olt b x then b else x)) as (I & M). split.
  - destruct (olt b x); cbn in I |- *; destruct I as [I|I]; auto.
  - intros y [<-|[<-|J]].
    + apply (olt_trans_false _ (if olt b x then b else x)); [|apply M; left; reflexivity]. destruct (olt b x) eqn:E; [|apply olt_irrefl]. destruct b as [b|], x as [x|]; cbn in *; try reflexivity; try discriminate. apply Rltb_true in E. apply Rltb_false. lra.
    + apply (olt_trans_false _ (if olt b x then b else x)); [|apply M; left; reflexivity]. destruct (olt b x) eqn:E; [apply olt_irrefl|exact E].
    + apply M. right. exact J.
Qed.
Lemma oeqb_eq : decides_eq (@oeqb R _).
Proof. intros [a|] [b|]; cbn; try (split; congruence). nR. rewrite Reqb_true. split; congruence. Qed.

Definition exps_of (row : list R) (sample : nat -> R) : list (option R) :=
  map (fun jr => if Req_EM_T (snd jr) 0 then None else Some (sample (fst jr))) (combine (seq 0 (length row)) row).
Lemma pc_exps_ok (row : list R) sample : (forall r, In r row -> 0 <= r) -> pc_exps row sample = Ok (exps_of row sample).
Proof.
  intros P. unfold pc_exps, exps_of. apply mmap_ok. intros (j, r) I. cbn [fst snd]. apply in_combine_r in I. specialize (P r I). nR. unfold Reqb. destruct (Req_EM_T r 0); [reflexivity|].
  change (@n0 R RNum) with 0. replace (nltb (1 / r) 0) with false; [reflexivity|]. symmetry. apply Rltb_false. apply Rlt_le, Rdiv_lt_0_compat; lra.
Qed.
Lemma exps_of_nth row sample k : (k < length row)%nat -> nth_error (exps_of row sample) k = Some (if Req_EM_T (nth k row 0) 0 then None else Some (sample k)).
Proof.
  intros L. unfold exps_of. rewrite nth_error_map. assert (E : nth_error (combine (seq 0 (length row)) row) k = Some (k, nth k row 0)).
  { assert (LC : length (combine (seq 0 (length row)) row) = length row) by (rewrite combine_length, seq_length; lia).
    rewrite (nth_error_nth' _ (0%nat, 0)) by lia. rewrite combine_nth by (rewrite seq_length; reflexivity). rewrite seq_nth by exact L. reflexivity. }
  rewrite E. reflexivity.
Qed.
Lemma exps_of_length row sample : length (exps_of row sample) = length row.
Proof. unfold exps_of. rewrite map_length, combine_length, seq_length. lia. Qed.

Lemma pc_next_spec (m : pctmc R) (c : ctmc R) s sample : wf_pctmc m -> realises m c -> (s < pc_n m)%nat -> (forall k, (k < pc_n m)%nat -> 0 <= matR (ct_mat c) s k) ->
  exists s' t, pc_next m s sample = Ok (nth s (pc_lab m) EmptyString, s', t) /\ (s' < pc_n m)%nat /\
    (t = if Req_EM_T (matR (ct_mat c) s s') 0 then None else Some (sample s')) /\
    (forall k, (k < pc_n m)%nat -> olt (if Req_EM_T (matR (ct_mat c) s k) 0 then None else Some (sample k)) t = false) /\
    (forall k, (k < s')%nat -> (if Req_EM_T (matR (ct_mat c) s k) 0 then None else Some (sample k)) <> t).
Proof.
  intros W RE Ls P. unfold pc_next. rewrite (real_det m c RE) by exact Ls. cbn [bind negb]. rewrite (real_row m c RE) by exact Ls.
  set (row := nth s (ct_mat c) []). assert (LR : length row = pc_n m). { destruct RE as (_ & _ & Ln & Lr & _). apply Lr, nth_In. unfold ct_n in Ln. lia. }
  rewrite pc_exps_ok. 2:{ intros r I. apply (In_nth _ _ 0) in I as (k & Lk & <-). apply P. lia. }
  cbn [bind]. destruct (exps_of row sample) as [|x l] eqn:E. { apply (f_equal (@length _)) in E. rewrite exps_of_length in E. cbn in E. lia. }
  destruct (omin_spec l x) as (I & M). destruct (LSet.index_of_In _ oeqb_eq _ _ I) as (s' & E1 & L1). rewrite E1. rewrite (real_lab m W) by exact Ls. cbn [bind].
  assert (LL : length (x :: l) = pc_n m) by (rewrite <- E, exps_of_length; exact LR).
  assert (NE : forall k, (k < pc_n m)%nat -> nth_error (x :: l) k = Some (if Req_EM_T (matR (ct_mat c) s k) 0 then None else Some (sample k))).
  { intros k Lk. rewrite <- E. rewrite exps_of_nth by lia. reflexivity. }
  exists s', (omin x l). split; [reflexivity|]. split; [lia|]. split.
  - apply (LSet.index_of_Some _ oeqb_eq) in E1. rewrite NE in E1 by lia. congruence.
  - split.
    + intros k Lk. apply M. eapply nth_error_In, NE, Lk.
    + intros k Lk. apply (LSet.index_of_first _ oeqb_eq _ _ _ E1 k); [exact Lk|]. apply NE. lia.
Qed.
(** When some rate is positive the transition taken is the one with the smallest
    sample, which is the time spent. *)
Theorem C88_pctmc_next_partial : forall (m : pctmc R) (c : ctmc R) s sample, wf_pctmc m -> realises m c -> (s < pc_n m)%nat ->
  (forall k, (k < pc_n m)%nat -> 0 <= matR (ct_mat c) s k) -> (exists k, (k < pc_n m)%nat /\ 0 < matR (ct_mat c) s k) ->
  exists s', pc_next m s sample = Ok (nth s (pc_lab m) EmptyString, s', Some (sample s')) /\ (s' < pc_n m)%nat /\ 0 < matR (ct_mat c) s s' /\
    (forall k, (k < pc_n m)%nat -> 0 < matR (ct_mat c) s k -> sample s' <= sample k) /\
    (forall k, (k < s')%nat -> 0 < matR (ct_mat c) s k -> sample s' < sample k).
Proof.
  intros m c s sample W RE Ls P (k0 & L0 & P0). destruct (pc_next_spec m c s sample W RE Ls P) as (s' & t & E & Ls' & T & M & F).
  assert (N : matR (ct_mat c) s s' <> 0).
  { intros Z. destruct (Req_EM_T (matR (ct_mat c) s s') 0); [|contradiction]. subst t. specialize (M k0 L0). destruct (Req_EM_T (matR (ct_mat c) s k0) 0); [lra|discriminate]. }
  destruct (Req_EM_T (matR (ct_mat c) s s') 0) as [|_]; [contradiction|]. subst t. exists s'. split; [exact E|]. split; [exact Ls'|]. split; [specialize (P s' Ls'); lra|].
  assert (G : forall k, (k < pc_n m)%nat -> 0 < matR (ct_mat c) s k -> sample s' <= sample k).
  { intros k Lk Pk. specialize (M k Lk). destruct (Req_EM_T (matR (ct_mat c) s k) 0); [lra|]. cbn in M. apply Rltb_false in M. exact M. }
  split; [exact G|]. intros k Lk Pk. specialize (G k ltac:(lia) Pk). specialize (F k Lk). destruct (Req_EM_T (matR (ct_mat c) s k) 0); [lra|]. destruct (Req_EM_T (sample k) (sample s')) as [X|X]; [congruence|lra].
Qed.
Print Assumptions C88_pctmc_next_partial.
(** From a state without outgoing rate the simulation moves to state 0 after an
    infinite time. *)
Theorem C88_pctmc_next_refuted : forall (m : pctmc R) (c : ctmc R) s sample, wf_pctmc m -> realises m c -> (s < pc_n m)%nat ->
  (forall k, (k < pc_n m)%nat -> matR (ct_mat c) s k = 0) -> pc_next m s sample = Ok (nth s (pc_lab m) EmptyString, O, None).
Proof.
  intros m c s sample W RE Ls Z. destruct (pc_next_spec m c s sample W RE Ls) as (s' & t & E & Ls' & T & M & F); [intros k Lk; rewrite Z by exact Lk; lra|].
  rewrite Z in T by exact Ls'. destruct (Req_EM_T 0 0); [|lra]. subst t. destruct s' as [|s']; [exact E|]. exfalso. apply (F O); [lia|]. rewrite Z by lia. destruct (Req_EM_T 0 0); [reflexivity|lra].
Qed.
Print Assumptions C88_pctmc_next_refuted.
(** A negative outgoing rate (a parameter instantiated outside its domain) is
    reported by an exception as soon as the state is left. *)
Lemma mmap_only_err {A B} (f : A -> res B) e l : (forall x, In x l -> (exists y, f x = Ok y) \/ f x = Err e) -> (exists x, In x l /\ f x = Err e) -> mmap f l = Err e.
Proof.
  induction l as [|a l IH]; intros H (x & I & E); [destruct I|]. cbn [mmap]. destruct (H a (or_introl eq_refl)) as [[y Ey]|Ea]; [|rewrite Ea; reflexivity].
  rewrite Ey. cbn [bind]. destruct I as [->|I]; [congruence|]. rewrite IH; [reflexivity|intros z J; apply H; right; exact J|exists x; auto].
Qed.
Theorem C88_pctmc_next_negative : forall (m : pctmc R) (c : ctmc R) s sample k, realises m c -> (s < pc_n m)%nat -> (k < pc_n m)%nat -> matR (ct_mat c) s k < 0 ->
  pc_next m s sample = Err ValueError.
Proof.
  intros m c s sample k RE Ls Lk N. unfold pc_next. rewrite (real_det m c RE) by exact Ls. cbn [bind negb]. rewrite (real_row m c RE) by exact Ls.
  set (row := nth s (ct_mat c) []). assert (LR : length row = pc_n m). { destruct RE as (_ & _ & Ln & Lr & _). apply Lr, nth_In. unfold ct_n in Ln. lia. }
  unfold pc_exps. rewrite (mmap_only_err _ ValueError); [reflexivity| |].
  - intros (j, r) _. destruct (neqb r n0); [left; eauto|]. destruct (nltb _ _); [right; reflexivity|left; eauto].
  - exists (k, nth k row 0). split.
    + replace (k, nth k row 0) with (nth k (combine (seq 0 (length row)) row) (0%nat, 0)); [apply nth_In; rewrite combine_length, seq_length; lia|].
      rewrite combine_nth by (rewrite seq_length; reflexivity). rewrite seq_nth by lia. reflexivity.
    + fold row in N. change (matR (ct_mat c) s k) with (nth k row 0) in N. nR. unfold Reqb. destruct (Req_EM_T (nth k row 0) 0); [lra|].
      change (@n0 R RNum) with 0. replace (nltb (1 / nth k row 0) 0) with true; [reflexivity|]. symmetry. apply Rltb_true. unfold Rdiv. rewrite Rmult_1_l. apply Rinv_lt_0_compat, N.
Qed.
Print Assumptions C88_pctmc_next_negative.
(** Whole runs, in a model where every state has a positive rate. *)
Fixpoint pc_path (c : ctmc R) (samples : nat -> nat -> R) (i s : nat) (x : list nat) : Prop :=
  match x with
  | [] => True
  | s' :: x' => 0 < matR (ct_mat c) s s' /\
      (forall k, (k < ct_n c)%nat -> 0 < matR (ct_mat c) s k -> samples i s' <= samples i k) /\
      pc_path c samples (S i) s' x'
  end.
Theorem C88_pctmc_run_partial : forall (m : pctmc R) (c : ctmc R) (steps : nat) r0 samples,
  wf_pctmc m -> realises m c -> is_dist (pc_ini m) -> unit_draw r0 ->
  (forall s k, (s < pc_n m)%nat -> (k < pc_n m)%nat -> 0 <= matR (ct_mat c) s k) ->
  (forall s, (s < pc_n m)%nat -> exists k, (k < pc_n m)%nat /\ 0 < matR (ct_mat c) s k) ->
  exists s x, length x = steps /\ selected (pc_ini m) r0 s /\ pc_path c samples 0 s x /\
    pc_run m (Z.of_nat steps) r0 samples =
      Ok (combine (map (fun j => nth j (pc_lab m) EmptyString) (s :: x)) (map Some (ct_times samples 0 x)), nth (last x s) (pc_lab m) EmptyString).
Proof.
  intros m c steps r0 samples W RE DI U0 P H. unfold pc_run.
  destruct (dist_selects _ r0 DI U0) as (c0 & Ec & Sc). rewrite Ec. cbn [bind]. rewrite Nat2Z.id.
  assert (Li : length (pc_ini m) = pc_n m) by apply W. assert (Ll : length (pc_lab m) = pc_n m) by apply W. assert (Ln : ct_n c = pc_n m) by apply RE.
  assert (Lc : (c0 < pc_n m)%nat) by (destruct Sc as [L _]; lia).
  assert (G : forall steps s i, (s < pc_n m)%nat -> exists x, length x = steps /\ pc_path c samples i s x /\
    pc_run_from m steps s samples i =
      Ok (combine (map (fun j => nth j (pc_lab m) EmptyString) (s :: x)) (map Some (ct_times samples i x)), nth (last x s) (pc_lab m) EmptyString)).
  { clear steps Ec Sc Lc c0. induction steps as [|steps IH]; intros s i Ls; cbn [pc_run_from].
    - exists []. rewrite (at_list_nth _ _ EmptyString) by lia. repeat split.
    - destruct (C88_pctmc_next_partial m c s (samples i) W RE Ls (fun k Lk => P s k Ls Lk) (H s Ls)) as (s' & E & Ls' & Ps & MIN & _).
      rewrite E. cbn [bind]. destruct (IH s' (S i) Ls') as (x & Lx & Px & Ex). rewrite Ex. cbn [bind fst snd].
      exists (s' :: x). split; [cbn; lia|]. split; [split; [exact Ps|split; [rewrite Ln; exact MIN|exact Px]]|].
      assert (EL : last (s' :: x) s = last x s').
      { clear. revert s s'; induction x as [|y x IH]; intros s s'; [reflexivity|]. destruct x as [|z x]; [reflexivity|]. exact (IH s s'). }
      rewrite EL. reflexivity. }
  destruct (G steps c0 O Lc) as (x & Lx & Px & Ex). exists c0, x. auto.
Qed.
Print Assumptions C88_pctmc_run_partial.
Example C88_instance : exists s x, length x = 4%nat /\ selected [1; 0] 0 s /\
  pc_run ex_inst 4 0 (fun i j => INR (i + j)) = Ok (combine (map (fun j => nth j ["init"; "a"]%string EmptyString) (s :: x)) (map Some (ct_times (fun i j => INR (i + j)) 0 x)), nth (last x s) ["init"; "a"]%string EmptyString).
Proof.
  destruct (C88_pctmc_run_partial ex_inst ex_real 4 0 (fun i j => INR (i + j)) ex_inst_wf ex_realises) as (s & x & Lx & Sx & _ & E).
  - split; [intros x [<-|[<-|[]]]; lra|cbn; lra].
  - unfold unit_draw. lra.
  - intros s k Ls Lk. cbn in Ls, Lk. assert (C : (s = 0 \/ s = 1)%nat) by lia. assert (D : (k = 0 \/ k = 1)%nat) by lia. destruct C as [-> | ->], D as [-> | ->]; unfold matR, vecR; cbn; lra.
  - intros s Ls. cbn in Ls. assert (C : (s = 0 \/ s = 1)%nat) by lia. destruct C as [-> | ->]; [exists 1%nat|exists 0%nat]; (split; [cbn; lia|unfold matR, vecR; cbn; lra]).
  - exists s, x. auto.
Qed.
Example C88_negative_instance : let m := mkPC [[1; 0]; [0; 0]]%nat ["init"; "a"]%string [EConst 0; EConst (-2)] [] [] [] [1; 0] "e" in
  pc_next m 0 (fun _ => 5) = Err ValueError.
Proof.
  intros m. apply (C88_pctmc_next_negative m (mkCTMC [[-2; 0]; [0; 0]] ["init"; "a"]%string [1; 0] "e") 0 _ 0); [|cbn; lia|cbn; lia|unfold matR; cbn; lra].
  split; [reflexivity|]. split; [reflexivity|]. split; [reflexivity|]. split; [intros r [<-|[<-|[]]]; reflexivity|].
  intros i j Li Lj. cbn in Li, Lj. assert (C : (i = 0 \/ i = 1)%nat) by lia. assert (D : (j = 0 \/ j = 1)%nat) by lia.
  destruct C as [-> | ->], D as [-> | ->]; exists (fun _ => 3); (split; [cbn; intros x O; contradiction|reflexivity]).
Qed.
Example C88_refuted_instance : let m := mkPC [[1; 0]; [0; 0]]%nat ["init"; "a"]%string [EConst 0; EConst 2] [] [] [] [1; 0] "e" in
  pc_next m 1 (fun _ => 5) = Ok ("a"%string, O, None).
Proof.
  intros m. apply (C88_pctmc_next_refuted m (mkCTMC [[2; 0]; [0; 0]] ["init"; "a"]%string [1; 0] "e")); [| |cbn; lia|].
  - split; [|split; [reflexivity|split; [reflexivity|split; [reflexivity|]]]].
    + intros r [<-|[<-|[]]]; (split; [reflexivity|]); intros k [<-|[<-|[]]]; cbn; lia.
    + intros x [<-|[<-|[]]]; lra.
  - split; [reflexivity|]. split; [reflexivity|]. split; [reflexivity|]. split; [intros r [<-|[<-|[]]]; reflexivity|].
    intros i j Li Lj. cbn in Li, Lj. assert (C : (i = 0 \/ i = 1)%nat) by lia. assert (D : (j = 0 \/ j = 1)%nat) by lia.
    destruct C as [-> | ->], D as [-> | ->]; exists (fun _ => 3); (split; [cbn; intros x O; contradiction|reflexivity]).
  - intros k Lk. cbn in Lk. assert (D : (k = 0 \/ k = 1)%nat) by lia. destruct D as [-> | ->]; reflexivity.
Qed.
