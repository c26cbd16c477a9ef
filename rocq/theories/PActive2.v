(** Theorems C103-C105: active learning, questions and failures. *)
From Coq Require Import String ZArith Bool Reals List Lra Lia Arith.
From Verif Require Import Num Py SNum LSum MTools LTools SPath LPath MSet SSet LSet MModels MCtor SBW SLik MLik MBW MRun SRun LCtor LRun PRun LFB LLik LLik2 LBW LBWSet LEM LEMGen LBWLoop LBWMDP SExp PLik PBWMDP.
From Verif Require Import MActive SActive PActive.
Import ListNotations.
Local Open Scope R_scope.

(** ** C103: which actions the scheduler can propose *)
Lemma dist_positive p k : is_dist p -> (k < length p)%nat -> 0 < vecR p k -> exists r, unit_draw r /\ resolveRandom p r = Ok k.
Proof.
  intros [N D] L P. pose proof (nonneg_rsum _ (nonneg_firstn k p N)) as A.
  pose proof (rsum_firstn_le p (Datatypes.S k) N) as B. rewrite firstn_S_sum, D in B by exact L.
  exists (rsum (firstn k p) + vecR p k / 2). split; [split; lra|]. apply selected_iff; [exact N|lra|].
  split; [exact L|]. split; [exact P|]. left. lra.
Qed.

(** The counts of a scheduler: one row per state, one nonnegative entry per action. *)
Definition counts_ok (h : mdp R) (mat : list (list R)) : Prop :=
  shaped (mdp_n h) (length (mdp_act h)) mat /\
  forall s j, (s < mdp_n h)%nat -> (j < length (mdp_act h))%nat -> 0 <= mget mat s j.
Definition al_ok (h : mdp R) (st : al_state R) : Prop :=
  (exists mat, al_mat st = Some mat /\ counts_ok h mat) /\ length (al_belief st) = mdp_n h /\ nonneg (al_belief st).

(** States the scheduler believes possible: all of them when its belief is lost. *)
Definition believed (h : mdp R) (st : al_state R) (s : nat) : Prop :=
  (s < mdp_n h)%nat /\ (0 < vecR (al_belief st) s \/ rsum (al_belief st) = 0).

Lemma al_states_ok (h : mdp R) (st : al_state R) : al_ok h st -> (0 < mdp_n h)%nat ->
  is_dist (al_states (al_belief st)) /\ length (al_states (al_belief st)) = mdp_n h /\
  forall s, (s < mdp_n h)%nat -> (0 < vecR (al_states (al_belief st)) s <-> believed h st s).
Proof.
  intros (_ & Lb & Nb) Pn. set (b := al_belief st) in *. unfold al_states. change (@nsum R RNum b) with (rsum b).
  pose proof (nonneg_rsum b Nb) as P0. nR. unfold Rleb. destruct (Rle_dec (rsum b) 0) as [Z|Z].
  - assert (Z0 : rsum b = 0) by lra. rewrite Lb. set (c := 1 / IZR (Z.of_nat (mdp_n h))).
    assert (Pc : 0 < c). { unfold c. apply Rdiv_lt_0_compat; [lra|]. apply (IZR_lt 0). lia. }
    split; [split|].
    + intros x I. apply repeat_spec in I. subst x. lra.
    + rewrite <- (firstn_all (repeat c _)), repeat_length, firstn_repeat_sum by lia. unfold c. rewrite <- INR_IZR_INZ. field. apply not_0_INR. lia.
    + split; [apply repeat_length|]. intros s Hs. unfold vecR, believed. rewrite (nth_indep _ 0 c) by (rewrite repeat_length; exact Hs). rewrite nth_repeat. fold b. split; [intros _; auto|intros _; exact Pc].
  - assert (P : 0 < rsum b) by lra. assert (Pi : 0 < / rsum b) by (apply Rinv_0_lt_compat, P).
    split; [split|].
    + intros x I. apply in_map_iff in I as (y & <- & I). apply Rmult_le_pos; [apply Nb, I|lra].
    + rewrite <- (Rinv_r (rsum b)) by lra. change (map (fun i => i / rsum b) b) with (map (fun i => i * / rsum b) b). generalize (/ rsum b). intros c. clear.
      induction b as [|x b IH]; [cbn; ring|]. cbn [map]. change (rsum (x * c :: map (fun i => i * c) b)) with (x * c + rsum (map (fun i => i * c) b)). change (rsum (x :: b)) with (x + rsum b). rewrite IH. ring.
    + split; [rewrite map_length; exact Lb|]. intros s Hs. rewrite vec_map by (rewrite Lb; exact Hs). unfold believed. fold b. split.
      * intros H. split; [exact Hs|]. left. apply (Rmult_lt_reg_r (/ rsum b)); [exact Pi|]. rewrite Rmult_0_l. exact H.
      * intros [_ [H|H]]; [|lra]. apply Rmult_lt_0_compat; assumption.
Qed.

(** Total count of a state. *)
Definition total_uses (h : mdp R) (mat : list (list R)) (s : nat) : R := Sum (length (mdp_act h)) (mget mat s).
(** What may be answered in a state. *)
Definition may_answer (h : mdp R) (mat : list (list R)) (s k : nat) : Prop :=
  (k < length (mdp_act h))%nat /\
  if (length (mdp_act h) =? 1)%nat then True
  else if Req_EM_T (total_uses h mat s) 0 then k = O else mget mat s k < total_uses h mat s.

Lemma row_ok (h : mdp R) mat s : counts_ok h mat -> (s < mdp_n h)%nat ->
  length (nth s mat []) = length (mdp_act h) /\ nonneg (nth s mat []) /\ rsum (nth s mat []) = total_uses h mat s.
Proof.
  intros [[Lm Lr] N] Hs. pose proof (Lr s Hs) as L. split; [exact L|]. split.
  - intros x I. apply (In_nth _ _ 0) in I as (j & Hj & <-). rewrite L in Hj. exact (N s j Hs Hj).
  - unfold total_uses. rewrite rsum_nth, L. reflexivity.
Qed.
Lemma answer_iff (h : mdp R) mat s k : counts_ok h mat -> (s < mdp_n h)%nat -> (0 < length (mdp_act h))%nat ->
  ((exists r, unit_draw r /\ al_getActionState (length (mdp_act h)) (nth s mat []) r = Ok k) <-> may_answer h mat s k) /\
  forall r, unit_draw r -> exists k', al_getActionState (length (mdp_act h)) (nth s mat []) r = Ok k' /\ (k' < length (mdp_act h))%nat.
Proof.
  intros C Hs PJ. destruct (row_ok h mat s C Hs) as (L & N & T). unfold may_answer. rewrite <- T. set (row := nth s mat []) in *. set (J := length (mdp_act h)) in *.
  assert (NE : row <> []) by (intros E; rewrite E in L; cbn in L; lia).
  assert (U0 : unit_draw 0) by (split; lra).
  destruct (Nat.eqb_spec J 1) as [E1|N1].
  { destruct row as [|c [|]]; cbn [length] in L; try lia. rewrite E1. split.
    - split; [intros (r & _ & H); rewrite C63_single_action in H; injection H as <-; split; [lia|exact I]|].
      intros [H _]. exists 0. split; [exact U0|]. rewrite C63_single_action. f_equal. lia.
    - intros r _. exists O. split; [apply C63_single_action|lia]. }
  destruct (Req_EM_T (rsum row) 0) as [Z|Z].
  { destruct (C63_unused_state_refuted J row NE Z) as [_ H]. split.
    - split; [intros (r & _ & X); rewrite H in X; injection X as <-; split; [exact PJ|reflexivity]|]. intros [_ ->]. exists 0. split; [exact U0|apply H].
    - intros r _. exists O. split; [apply H|exact PJ]. }
  pose proof (nonneg_rsum row N).
  destruct (C63_weights J row ltac:(lia) L N ltac:(lra)) as (w & Ew & Lw & Dw & _ & Fw & Zw & Sw).
  split.
  - split.
    + intros (r & U & H1). unfold al_getActionState in H1. rewrite Ew in H1. destruct U as [U0' U1]. apply selected_iff in H1 as (A & B & _); [|apply Dw|exact U0'].
      rewrite Lw in A. split; [exact A|]. pose proof (rsum_pos_le row N (vecR row k) (vec_In row k ltac:(lia))) as Le.
      destruct (Rle_lt_or_eq_dec _ _ Le) as [Lt|E]; [exact Lt|]. exfalso. apply (Zw k A) in E. lra.
    + intros [A B]. destruct (dist_positive w k Dw ltac:(lia)) as (r & U & E).
      * destruct (Rle_lt_or_eq_dec 0 (vecR w k)) as [P|P]; [apply (proj1 Dw), vec_In; lia|exact P|]. symmetry in P. apply (Zw k A) in P. change (vecR row k < rsum row) in B. lra.
      * exists r. split; [exact U|]. unfold al_getActionState. rewrite Ew. exact E.
  - intros r U. unfold al_getActionState. rewrite Ew. destruct (dist_selects w r Dw U) as (k' & E & S'). exists k'. split; [exact E|]. destruct S' as [S' _]. lia.
Qed.

(** The k-th action can be proposed: some two draws make getAction return it. *)
Definition proposes (h : mdp R) (st : al_state R) (k : nat) : Prop :=
  (k < length (mdp_act h))%nat /\
  exists r1 r2 st', unit_draw r1 /\ unit_draw r2 /\ al_getAction h st [r1; r2] = Some (Ok (nth k (mdp_act h) EmptyString, st'), []).

Lemma get_ok (h : mdp R) (st : al_state R) draws x l : al_ok h st -> (0 < mdp_n h)%nat -> (0 < length (mdp_act h))%nat ->
  (forall r, In r draws -> unit_draw r) -> al_getAction h st draws = Some (x, l) ->
  exists k, (k < length (mdp_act h))%nat /\ x = Ok (nth k (mdp_act h) EmptyString, mkAL (al_mat st) (al_belief st) (Some k)) /\ proposes h st k.
Proof.
  intros OK Pn PJ UD. destruct (al_states_ok h st OK Pn) as (D & Ls & _). destruct OK as ((mat & Em & C) & _). unfold proposes, al_getAction. rewrite Em.
  destruct draws as [|r1 [|r2 draws]]; [discriminate| |].
  - destruct (dist_selects _ r1 D (UD r1 (or_introl eq_refl))) as (s & Es & Ss). rewrite Es. destruct Ss as [Ss _]. rewrite Ls in Ss.
    rewrite (at_list_nth mat s []) by (rewrite (proj1 (proj1 C)); exact Ss). discriminate.
  - pose proof (UD r1 (or_introl eq_refl)) as U1. pose proof (UD r2 (or_intror (or_introl eq_refl))) as U2.
    destruct (dist_selects _ r1 D U1) as (s & Es & Ss). rewrite Es. destruct Ss as [Ss _]. rewrite Ls in Ss.
    rewrite (at_list_nth mat s []) by (rewrite (proj1 (proj1 C)); exact Ss).
    destruct (answer_iff h mat s O C Ss PJ) as [_ H]. destruct (H r2 U2) as (k & Ek & Lk). rewrite Ek. cbn [bind]. rewrite (at_list_nth _ k EmptyString) by exact Lk. cbn [bind].
    intros [= <- <-]. exists k. split; [exact Lk|]. split; [reflexivity|]. split; [exact Lk|]. exists r1, r2. rewrite Es, (at_list_nth mat s []) by (rewrite (proj1 (proj1 C)); exact Ss).
    rewrite Ek. cbn [bind]. rewrite (at_list_nth _ k EmptyString) by exact Lk. eexists. split; [exact U1|]. split; [exact U2|reflexivity].
Qed.

(** An action can be proposed exactly when it may be answered in a state that is
    believed possible: the least used ones are favoured, and an action that is
    the only one used so far in a state is never proposed from that state. *)
Theorem C103_proposals : forall (h : mdp R) (st : al_state R) (mat : list (list R)) (k : nat),
  al_ok h st -> al_mat st = Some mat -> (0 < mdp_n h)%nat -> (0 < length (mdp_act h))%nat -> NoDup (mdp_act h) ->
  (proposes h st k <-> exists s, believed h st s /\ may_answer h mat s k).
Proof.
  intros h st mat k OK Em Pn PJ ND. destruct (al_states_ok h st OK Pn) as (D & Ls & Bs). destruct OK as ((mat' & Em' & C) & _). rewrite Em in Em'. injection Em' as <-.
  split.
  - intros (Lk & r1 & r2 & st' & U1 & U2 & E). unfold al_getAction in E. destruct (dist_selects _ r1 D U1) as (s & Es & Ss). rewrite Es, Em in E. destruct Ss as (Ss & Ps & _). rewrite Ls in Ss.
    rewrite (at_list_nth mat s []) in E by (rewrite (proj1 (proj1 C)); exact Ss).
    exists s. split; [apply Bs; assumption|]. destruct (answer_iff h mat s k C Ss PJ) as [IFF H]. destruct (H r2 U2) as (k' & Ek & Lk').
    rewrite Ek in E. cbn [bind] in E. rewrite (at_list_nth _ k' EmptyString) in E by exact Lk'. cbn [bind] in E. injection E as E _.
    assert (k' = k) as -> by (apply (NoDup_nth (mdp_act h) EmptyString); assumption). apply IFF. exists r2. split; assumption.
  - intros (s & Hb & A). pose proof (proj1 A) as Lk. pose proof (proj1 Hb) as Hs. split; [exact Lk|]. apply Bs in Hb; [|exact Hs].
    destruct (dist_positive _ s D ltac:(lia) Hb) as (r1 & U1 & E1). destruct (answer_iff h mat s k C Hs PJ) as [[_ IFF] _]. destruct (IFF A) as (r2 & U2 & E2).
    exists r1, r2. eexists. split; [exact U1|]. split; [exact U2|]. unfold al_getAction. rewrite E1, Em, (at_list_nth mat s []) by (rewrite (proj1 (proj1 C)); exact Hs).
    rewrite E2. cbn [bind]. rewrite (at_list_nth _ k EmptyString) by exact Lk. reflexivity.
Qed.
Print Assumptions C103_proposals.

Lemma al_ok_last h st k : al_ok h st -> al_ok h (mkAL (al_mat st) (al_belief st) k).
Proof. intros H. exact H. Qed.
Lemma proposes_last h st q k : proposes h (mkAL (al_mat st) (al_belief st) q) k <-> proposes h st k.
Proof.
  unfold proposes. split; intros (L & r1 & r2 & st' & U1 & U2 & E); (split; [exact L|]); exists r1, r2, st'; (split; [exact U1|]); (split; [exact U2|]); rewrite <- E; unfold al_getAction; reflexivity.
Qed.

(** The system accepts none of the actions that can be proposed: the loop that
    asks for an action never ends, whatever the draws. *)
Theorem C103_livelock_refuted : forall (h sul : mdp R) (st : al_state R) (s : nat),
  al_ok h st -> (0 < mdp_n h)%nat -> (0 < length (mdp_act h))%nat ->
  (forall k, proposes h st k -> ~ In (nth k (mdp_act h) EmptyString) (getActions sul s)) ->
  forall fuel draws, (forall r, In r draws -> unit_draw r) -> g_choose sul (ActiveLearningScheduler h) fuel st s draws = None.
Proof.
  intros h sul st s OK Pn PJ NO fuel. revert st OK NO. induction fuel as [|fuel IH]; intros st OK NO draws UD; [reflexivity|]. cbn [g_choose].
  destruct (g_get (ActiveLearningScheduler h) st draws) as [[x l]|] eqn:E; [|reflexivity].
  destruct (suffixing_active h _ _ _ _ E) as [l0 E0]. cbn [g_get ActiveLearningScheduler] in E.
  destruct (get_ok h st draws x l OK Pn PJ UD E) as (k & Lk & -> & Pk).
  destruct (memb String.eqb _ (getActions sul s)) eqn:M; [apply memb_str in M; exfalso; exact (NO k Pk M)|].
  apply IH; [exact (al_ok_last h st (Some k) OK)| |].
  - intros j Pj. apply NO. apply (proposes_last h st (Some k) j), Pj.
  - intros r I. apply UD. rewrite E0. apply in_or_app. right; exact I.
Qed.
Print Assumptions C103_livelock_refuted.
(** Otherwise two well chosen draws are enough. *)
Theorem C103_progress : forall (h sul : mdp R) (st : al_state R) (s k : nat),
  proposes h st k -> In (nth k (mdp_act h) EmptyString) (getActions sul s) ->
  exists r1 r2 st', unit_draw r1 /\ unit_draw r2 /\
    g_choose sul (ActiveLearningScheduler h) 1 st s [r1; r2] = Some (Ok (nth k (mdp_act h) EmptyString, st'), []).
Proof.
  intros h sul st s k (L & r1 & r2 & st' & U1 & U2 & E) I. exists r1, r2, st'. split; [exact U1|]. split; [exact U2|].
  cbn [g_choose g_get ActiveLearningScheduler]. rewrite E. apply memb_str in I. rewrite I. reflexivity.
Qed.
Print Assumptions C103_progress.

(** A system whose initial state has a single action, the training set being one
    of its runs, and the hypothesis being the system itself: sampling with the
    exploration scheduler never ends. *)
Definition ex_loop : mdp R := mkMDP [[[1/2; 1/2]; [0; 1]]; [[1; 0]; [0; 0]]] ["x"; "y"]%string ["a"; "b"]%string [0; 1] "ex"%string.
Definition ex_lset : tset (list string) := mkset [["y"; "a"; "x"]%string] [1%Z] (Some 1%Z).
Lemma ex_loop_ok : wf_mdp ex_loop /\ nonneg_mdp ex_loop /\ mdp_dist ex_loop /\ is_dist (mdp_ini ex_loop).
Proof.
  split; [|split; [|split]].
  - unfold wf_mdp, mdp_n; cbn. repeat split; auto.
    + destruct H as [<-|[<-|[]]]; reflexivity.
    + destruct H as [<-|[<-|[]]]; intros r [<-|[<-|[]]]; reflexivity.
    + constructor; [intros [H|[]]; discriminate|]. constructor; [intros []|constructor].
    + intros v [<-|[<-|[]]]; lra.
  - intros ra [<-|[<-|[]]] r [<-|[<-|[]]] v [<-|[<-|[]]]; lra.
  - intros ra r [<-|[<-|[]]] [<-|[<-|[]]]; (split; [intros x [<-|[<-|[]]]; lra|cbn; lra]).
  - split; [intros x [<-|[<-|[]]]; lra|cbn; lra].
Qed.
Theorem C103_sampling_never_ends_refuted :
  wf_mdp ex_loop /\ mdp_dist ex_loop /\ is_dist (mdp_ini ex_loop) /\ (forall tr, In tr (seqs ex_lset) -> 0 < mdp_trace_prob ex_loop tr) /\
  forall draws, (forall r, In r draws -> unit_draw r) -> addTraces 2 ex_loop ex_loop 1 1 ex_lset 1 draws = None.
Proof.
  destruct ex_loop_ok as (W & N & DM & DI). split; [exact W|]. split; [exact DM|]. split; [exact DI|].
  assert (P1 : mdp_trace_prob ex_loop ["y"; "a"; "x"]%string = 1).
  { unfold mdp_trace_prob, trace_prob, sumL, act_mat, is_label, Sum, sumL; cbn; lra. }
  split; [intros tr [<-|[]]; rewrite P1; lra|]. intros draws UD.
  assert (A : alternating_set (combine (seqs ex_lset) (times ex_lset))) by (intros tr t [E|[]]; inversion E; reflexivity).
  assert (PO : possible_in ex_loop (combine (seqs ex_lset) (times ex_lset))).
  { exists ["y"; "a"; "x"]%string, 1%Z. split; [left; reflexivity|]. rewrite P1. lra. }
  destruct (C101_strategy 2 ex_loop _ W N A (le_n _) PO) as (mat & E & SH & M). unfold addTraces. rewrite E.
  assert (V : forall s j, (s < 2)%nat -> (j < 2)%nat -> mget mat s j = if (Nat.eqb s 1 && Nat.eqb j 0)%bool then 1 else 0).
  { intros s j Hs Hj. rewrite (M s j Hs Hj). unfold set_expected, sumL. cbn [combine seqs times ex_lset map fst snd]. destruct (Rlt_dec 0 _) as [Q|Q]; [|rewrite P1 in Q; lra].
    rewrite P1. unfold mdp_expected_visits, mdp_expected, expected, sumL, act_mat, is_label, Sum, sumL, on_leave, ind.
    destruct s as [|[|s]]; [| |lia]; (destruct j as [|[|j]]; [| |lia]); cbn; lra. }
  assert (OK : al_ok ex_loop (al_new (Some mat) ex_loop)).
  { split; [exists mat; split; [reflexivity|]; split; [exact SH|]|].
    - intros s j Hs Hj. rewrite (V s j Hs Hj). destruct (_ && _)%bool; lra.
    - split; [reflexivity|]. intros x [<-|[<-|[]]]; cbn; lra. }
  change (Z.to_nat 1) with 1%nat. cbn [sample_loop]. destruct draws as [|r draws]; [reflexivity|].
  pose proof (UD r (or_introl eq_refl)) as Ur. replace (@nltb R RNum 1 r) with false by (symmetry; apply Rltb_false; destruct Ur; lra).
  replace (g_run ex_loop (ActiveLearningScheduler ex_loop) (al_new (Some mat) ex_loop) 1 draws) with (@None (res (list string * al_state R) * list R)); [reflexivity|].
  symmetry. unfold g_run. destruct draws as [|r0 draws]; [reflexivity|]. pose proof (UD r0 (or_intror (or_introl eq_refl))) as U0.
  destruct (dist_selects _ r0 DI U0) as (c & Ec & Lc & Pc & _). rewrite Ec.
  assert (c = 1%nat) as ->. { destruct c as [|[|c]]; [unfold vecR in Pc; cbn in Pc; lra|reflexivity|cbn in Lc; lia]. }
  change (Z.to_nat 1) with 1%nat. cbn [g_run_from]. cbn [g_reset ActiveLearningScheduler].
  rewrite (C103_livelock_refuted ex_loop ex_loop); [reflexivity|exact OK|cbn; lia|cbn; lia| |].
  - intros k Pk. apply (C103_proposals ex_loop _ mat k) in Pk; [|exact OK|reflexivity|cbn; lia|cbn; lia|apply W].
    destruct Pk as (s & [Hs Hb] & Hk & MA). cbn in Hs, Hk. destruct Hb as [Hb|Hb]; [|cbn in Hb; lra].
    assert (s = 1%nat) as ->. { destruct s as [|[|s]]; [cbn in Hb; lra|reflexivity|lia]. }
    cbn [length mdp_act ex_loop Nat.eqb] in MA.
    assert (T : total_uses ex_loop mat 1 = 1). { unfold total_uses, Sum, sumL. cbn [length mdp_act ex_loop seq map]. rewrite !V by lia. cbn. lra. }
    rewrite T in MA. destruct (Req_EM_T 1 0); [lra|]. intros I. apply getActions_In in I as (c & Lc' & Ec' & Pc').
    destruct k as [|[|k]]; [rewrite V in MA by lia; cbn in MA; lra| |lia]. cbn in Ec'. destruct c as [|[|c]]; [discriminate| |cbn in Lc'; lia]. cbn in Pc'. lra.
  - intros q I. apply UD. right; right; exact I.
Qed.
Print Assumptions C103_sampling_never_ends_refuted.
