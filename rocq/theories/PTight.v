(** Theorems added after seeded edits of the model were not noticed: exact
    exceptions and boundary cases (C16, C27, C92, C93), and the matrix version of
    the forward computation (C112). *)
From Coq Require Import String ZArith Bool Reals List Lia Lra.
From Verif Require Import Num Py SNum LSum LTools MSet SSet MModels MLik MBW SBW SPath SLik LFB LEM LBW LBWMC LBWCT LGain LLik PBWCT PBWCTU MTools MCtor SCtor PCtor PRace MPctmc MPCompose MIOAlergia MPLearn.
Import ListNotations.
Local Open Scope R_scope.

(** C16: a row which is not a distribution is a ValueError, whatever the outputs. *)
Theorem C16_HMM_bad_row : forall (matrix output : list (list R)) out_list alphabet i name r,
  ini_ok (length matrix) i -> In r matrix -> ~ row_ok (rsum r) -> HMM_new matrix output out_list alphabet i name = Err ValueError.
Proof.
  intros matrix output ol alphabet i name r HI I N. unfold HMM_new, base_hmm_init. destruct (model_init_spec (length matrix) i) as (Hok & _ & _).
  apply Hok in HI. destruct HI as [x ->]. cbn [bind]. destruct (forallb checkProbabilities matrix) eqn:C; [|reflexivity].
  exfalso. apply N. rewrite forallb_forall in C. apply checkProbabilities_iff. apply C. exact I.
Qed.
Print Assumptions C16_HMM_bad_row.
Example C16_HMM_bad_row_instance : HMM_new [[1/2; 1/4]; [0; 1]] [[1]; [1]] false ["x"]%string (IniInt 0) "m" = Err ValueError.
Proof. apply (C16_HMM_bad_row _ _ _ _ _ _ [1/2; 1/4]); [cbn; lia|left; reflexivity|]. unfold row_ok. cbn. unfold Rabs. intros [H|H]; destruct (Rcase_abs _) in H; lra. Qed.

(** C27: a Gaussian of deviation 0 (or less) is the point mass at its mean, in any
    arithmetic. *)
Theorem C27_gohmm_point_mass : forall K (NK : Num K) (TK : Trans K) (m : gohmm K) s k l mu sigma, nth k (nth s (go_out m) []) (n0, n0) = (mu, sigma) -> nleb sigma n0 = true ->
  go_b_n m s k l = if neqb l mu then n1 else n0.
Proof. intros K NK TK m s k l mu sigma E Hs. unfold go_b_n, go_param. rewrite E, Hs. reflexivity. Qed.
Print Assumptions C27_gohmm_point_mass.
Theorem C27_gohmm_point_mass_value : forall (m : gohmm R) s k l, stddev m s k = 0 -> go_b_n m s k l = if Req_EM_T l (mean m s k) then 1 else 0.
Proof.
  intros m s k l. unfold stddev, mean, go_b_n, go_param. destruct (nth k (nth s (go_out m) []) (0, 0)) as [mu sigma] eqn:E. cbn [fst snd]. intros ->. change (@n0 R RNum) with 0. rewrite E. nR.
  assert (Rleb 0 0 = true) as -> by (apply Rleb_true; lra). unfold Reqb. destruct (Req_EM_T l mu); reflexivity.
Qed.
Print Assumptions C27_gohmm_point_mass_value.
Example C27_gohmm_point_mass_instance : go_b_n (mkGO [[1]] [[(2, 0)]] [1] "g"%string) 0 0 2 = 1 /\ go_b_n (mkGO [[1]] [[(2, 0)]] [1] "g"%string) 0 0 1 = 0.
Proof. split; rewrite C27_gohmm_point_mass_value by reflexivity; unfold mean; cbn; [destruct (Req_EM_T 2 2)|destruct (Req_EM_T 1 2)]; try reflexivity; lra. Qed.

(** C92: composing no model is refused, composing one model returns it. *)
Theorem C92_pctmc_few : forall K (NK : Num K) dflt pstrs name,
  synchronousCompositionPCTMCs [] dflt pstrs name = (Err ValueError, dflt) /\
  (forall m own, synchronousCompositionPCTMCs [(m, own)] dflt pstrs name = (Ok m, dflt)).
Proof. intros. split; reflexivity. Qed.
Print Assumptions C92_pctmc_few.

(** C93: an empty training set is refused by IOAlergia. *)
Theorem C93_ioalergia_empty : forall K (NK : Num K) (TK : Trans K) eqb leb fuel (s : tset (list string)) (epsilon : K) prism, seqs s = [] ->
  ioalergia_fit eqb leb fuel s epsilon prism = Some (Err IndexError).
Proof. intros K NK TK eqb leb fuel s epsilon prism E. unfold ioalergia_fit. rewrite E. reflexivity. Qed.
Print Assumptions C93_ioalergia_empty.

(** ** C112: the matrix version of the forward computation *)

Lemma m_tau_rows (h : ctmc R) s : wf_ctmc h -> (s < ct_n h)%nat -> Sum (ct_n h) (m_tau h s) = 1.
Proof.
  intros W Hs. unfold m_tau. nR. destruct (Reqb (ct_e h s) 0) eqn:E.
  - rewrite (Sum_ext _ _ (fun ss => if (ss =? s)%nat then 1 else 0)) by (intros i _; rewrite (Nat.eqb_sym s i); reflexivity). rewrite Sum_delta. destruct (Nat.ltb_spec s (ct_n h)); [reflexivity|lia].
  - apply Reqb_false in E. pose proof (jump_row_sum h s W Hs E) as J. unfold jump in J. exact J.
Qed.
Lemma m_step (h : ctmc R) (ot : string * R) s s' : wf_ctmc h -> nonneg_mat (ct_mat h) -> (s < ct_n h)%nat -> (s' < ct_n h)%nat ->
  m_phi h ot s * m_tau h s s' = ct_w h ot s s'.
Proof.
  intros W N Hs Hs'. unfold m_phi, m_tau, ct_w, ct_l. nR. destruct (String.eqb _ _); cbn [negb]; [|ring].
  destruct (Reqb (ct_e h s) 0) eqn:E; [|apply Reqb_false in E; change (mget (ct_mat h) s s') with (matR (ct_mat h) s s'); field; exact E].
  apply Reqb_true in E. rewrite E. assert (Z : mget (ct_mat h) s s' = 0); [|rewrite Z; ring].
  unfold ct_e in E. toR. rewrite (row_sum_Sum (ct_mat h) (ct_n h) s (proj1 W) Hs) in E.
  apply (Sum_nonneg_zero (ct_n h) (mget (ct_mat h) s)); auto; [intros i Hi; apply mget_nonneg; exact N|]. apply Req_le. exact E.
Qed.
(** The probability computed by the matrix version is the density of the trace, as
    for the other version: the additional move adds nothing. *)
Theorem C112_matrix_density : forall (h : ctmc R) obs ts al be, wf_ctmc h -> nonneg_mat (ct_mat h) -> length obs = S (length ts) ->
  forward_backward KTimedMatrix h (obs, Some ts) = Ok (al, be) -> proba_of al = ct_density h (obs, ts).
Proof.
  intros h obs ts al be W N L E. cbn in E. injection E as <- _. rewrite (proba_model (ct_n h)) by apply W. unfold m_ws. rewrite tot_snoc, ct_density_tot by exact L.
  rewrite (tot_ext_f _ _ _ _ (is_label (ct_lab h) (last obs EmptyString))).
  - apply tot_ext_w. assert (G : forall l, Forall2 (fun w w' => forall i j, (i < ct_n h)%nat -> (j < ct_n h)%nat -> w i j = w' i j) (map (fun ot ss s => m_phi h ot ss * m_tau h ss s) l) (map (ct_w h) l)).
    { induction l as [|ot l IH]; constructor; [|exact IH]. intros i j Hi Hj. apply m_step; assumption. }
    apply G.
  - intros s Hs. rewrite (Sum_ext _ _ (fun s' => is_label (ct_lab h) (last obs EmptyString) s * m_tau h s s')).
    + rewrite Sum_scal_l, m_tau_rows by assumption. ring.
    + intros i Hi. unfold is_label, lab. nR. destruct (String.eqb _ _); ring.
Qed.
Print Assumptions C112_matrix_density.
(** Non-vacuity: a CTMC whose second state cannot be left. *)
Example C112_matrix_density_instance : let h := mkCTMC [[0; 2]; [0; 0]] ["init"; "a"]%string [1; 0] "h" in
  exists al be, forward_backward KTimedMatrix h (["init"; "a"]%string, Some [3]) = Ok (al, be) /\ proba_of al = 2 * exp (- 6).
Proof.
  intros h. eexists. eexists. split; [reflexivity|].
  assert (W : wf_ctmc h) by (unfold wf_ctmc, square, ct_n; cbn; repeat split; auto; [intros r [<-|[<-|[]]]; reflexivity|]; intros v [<-|[<-|[]]]; lra).
  rewrite (C112_matrix_density h ["init"; "a"]%string [3] _ _ W) by first [reflexivity|intros r [<-|[<-|[]]]; intros v [<-|[<-|[]]]; lra].
  unfold ct_density, trace_prob, paths, jump_density. cbn [fst snd map length]. unfold sumL. cbn. unfold exit_rate, is_label. cbn. unfold matR, vecR. cbn. replace (- ((0 + (2 + 0)) * 3)) with (- 6) by lra. lra.
Qed.
